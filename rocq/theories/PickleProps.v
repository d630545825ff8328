(** C72: a model saved and restored. *)
From Coq Require Import Lra.
From Verif Require Import TouchModel TouchSpec TouchProofs TouchSteps TouchProps PickleModel.
Open Scope string_scope.
Open Scope list_scope.

(** Two models, each in its world, have the same settings but for data and constraints (controller.pyx 60-95): the same
    terms in their functions and the same choices, weights, availability, scales, graph and number type. *)
Definition alike (w : world) (i : nat) (w' : world) (j : nat) : Prop :=
  let m := w_m w i in let m' := w_m w' j in
  f_terms (w_f w' (m_uca m')) = f_terms (w_f w (m_uca m)) /\
  f_terms (w_f w' (m_qca m')) = f_terms (w_f w (m_qca m)) /\
  Forall2 (fun a b => fst a = fst b /\ f_terms (w_f w' (snd a)) = f_terms (w_f w (snd b))) (m_uco m') (m_uco m) /\
  m_qs m' = m_qs m /\ m_ls m' = m_ls m /\ m_cca m' = m_cca m /\ m_cco m' = m_cco m /\ m_ccode m' = m_ccode m /\ m_cany m' = m_cany m /\
  m_wt m' = m_wt m /\ m_av m' = m_av m /\ m_avco m' = m_avco m /\ m_avany m' = m_avany m /\ m_graph m' = m_graph m /\ m_type m' = m_type m.
(** Nothing that was there before has changed, but for model [j] (parameter_frame.pyx 57-76). *)
Definition only_new (j : nat) (w w' : world) : Prop :=
  (forall k, k <> j -> w_m w' k = w_m w k) /\ (forall r, (r < w_next w)%nat -> w_f w' r = w_f w r) /\ w_t w' = w_t w /\
  (w_next w <= w_next w')%nat.

Lemma make_fns_exact : forall l w, let '(w', d, ok) := make_fns (map (fun kx => (fst kx, map Some (snd kx))) l) w in
  ok = true /\ map (fun kr => (fst kr, f_terms (w_f w' (snd kr)))) d = l.
Proof.
  induction l as [|[k x] l IH]; intro w; cbn [map make_fns fst snd]; [split; reflexivity|].
  assert (G : all_good (map Some x) = true) by (unfold all_good; apply forallb_forall; intros y Y; apply in_map_iff in Y as [c [<- _]]; reflexivity).
  rewrite G. cbn [new_fn]. set (w1 := mkWorld _ _ _ _).
  pose proof (make_fns_ok (map (fun kx => (fst kx, map Some (snd kx))) l) w1) as M. specialize (IH w1).
  destruct (make_fns _ w1) as [[w' d] ok]. destruct IH as [-> I]. destruct M as [_ [_ [_ [M _]]]]. split; [reflexivity|].
  cbn [map fst snd]. rewrite I. f_equal. f_equal. rewrite M by (cbn; lia). cbn [w1 w_f]. rewrite put_same. cbn [f_terms].
  clear. induction x as [|c x IH]; [reflexivity|]. cbn [map good]. now rewrite IH.
Qed.
Lemma pairs_forall2 : forall {A} (f : A -> list comp) (g : A -> list comp) (a b : list (Z * A)),
  map (fun kr => (fst kr, f (snd kr))) a = map (fun kr => (fst kr, g (snd kr))) b ->
  Forall2 (fun x y => fst x = fst y /\ f (snd x) = g (snd y)) a b.
Proof.
  intros A f g a. induction a as [|x a IH]; intros [|y b] H; cbn in H; try discriminate; constructor.
  - injection H as H1 H2 _. auto.
  - apply IH. now injection H.
Qed.
Lemma give_functions_ok : forall s j w, let w' := give_functions s j w in let m := w_m w j in let m' := w_m w' j in
  only_new j w w' /\
  (f_terms (w_f w' (m_uca m')) = s_uca s /\ f_owner (w_f w' (m_uca m')) = Some j) /\
  (f_terms (w_f w' (m_qca m')) = s_qca s /\ f_owner (w_f w' (m_qca m')) = Some j) /\
  map (fun kr => (fst kr, f_terms (w_f w' (snd kr)))) (m_uco m') = s_uco s /\
  (forall r, reach m' r -> (w_next w <= r /\ r < w_next w')%nat) /\
  exists u q d, m' = mkM u q d (m_qs m) (m_ls m) (m_cca m) (m_cco m) (m_ccode m) (m_cany m) (m_wt m) (m_av m) (m_avco m) (m_avany m)
    (m_graph m) (m_type m) (m_tree m) (m_frame m) (m_cons m) (m_mangled m) (m_dset m) (m_arr m) (m_fix m) (m_cf m) (m_flows m).
Proof.
  intros s j w. cbv zeta. unfold give_functions. cbn [new_fn]. set (w1 := mkWorld _ _ _ _).
  pose proof (make_fns_ok (map (fun kx => (fst kx, map Some (snd kx))) (s_uco s)) w1) as M.
  pose proof (make_fns_exact (s_uco s) w1) as X.
  destruct (make_fns _ w1) as [[w2 d] ok]. destruct X as [-> X]. destruct M as [M1 [M2 [M3 [M4 [M5 _]]]]].
  cbn [w1 w_next w_m w_t w_f] in M1, M2, M3, M4, M5. cbn [new_fn].
  assert (U : w_f w2 (w_next w) = mkFn (s_uca s) (Some j)) by (rewrite M4 by lia; apply put_same).
  unfold only_new. rewrite on_same. cbn [on w_m w_f w_next w_t m_uca m_qca m_uco]. rewrite M1.
  split; [|split; [|split; [|split; [|split]]]].
  - split; [intros k K; now apply put_other|]. split; [|split; [now rewrite M2|lia]].
    intros r R. rewrite put_other by lia. rewrite M4 by lia. apply put_other. lia.
  - rewrite put_other by lia. rewrite U. split; reflexivity.
  - rewrite put_same. split; reflexivity.
  - rewrite <- X. apply map_ext_in. intros kr K. rewrite put_other; [reflexivity|].
    assert (Q : In (snd kr) (map snd d)) by (now apply in_map). specialize (M5 _ Q). lia.
  - intros r [R|[R|R]]; cbn [m_uca m_qca m_uco] in R; [lia|lia|]. specialize (M5 r R). lia.
  - eexists _, _, _. reflexivity.
Qed.
(** A model with no data: unmangling only completes its parameters. *)
Lemma unmangle_no_tree : forall j w, m_tree (w_m w j) = None -> let w' := fst (unmangle j true w) in
  rest_same j w w' /\ kept (w_m w j) (w_m w' j) /\ m_flows (w_m w' j) = m_flows (w_m w j) /\
  (forall x, row (m_frame (w_m w' j)) x = named w (w_m w j) x) /\ built w (w_m w' j).
Proof.
  intros j w T. pose proof (unmangle_step j true w) as U. destruct (unmangle j true w) as [w' ok]. cbn [fst]. destruct U as [R U].
  assert (C : clear_m w (w_m w j)). { apply clear_clear_m. intros t fl key tag defs f Q. congruence. }
  pose proof (step_force_ok w (w_m w j) C) as Q. rewrite <- U in Q. destruct Q as [K [_ [Rw [B _]]]].
  split; [exact R|]. split; [exact K|]. split; [|auto].
  assert (F : w_m w' j = fst (step_unmangle w true (w_m w j))) by (now rewrite <- U). rewrite F.
  revert T. unfold step_unmangle, step_load, step_fix, step_scan. destruct (w_m w j). cbn. intros ->. reflexivity.
Qed.
(** ** What the restored model is *)
Lemma loads_ok : forall made i w s j, dumps made i w = Some s ->
  let w' := loads s j w in
  alike w i w' j /\ only_new j w w' /\ (forall x, row (m_frame (w_m w' j)) x = named w (w_m w i) x) /\
  m_cons (w_m w' j) = [] /\ m_tree (w_m w' j) = None /\ m_flows (w_m w' j) = None /\ built w' (w_m w' j) /\
  (forall r, reach (w_m w' j) r -> (w_next w <= r /\ r < w_next w')%nat) /\
  f_owner (w_f w' (m_uca (w_m w' j))) = Some j /\ f_owner (w_f w' (m_qca (w_m w' j))) = Some j.
Proof.
  intros made i w s j D. cbv zeta. unfold loads.
  set (wb := on j (fun _ => blank) w). pose proof (give_functions_ok s j wb) as G. cbv zeta in G.
  set (wg := give_functions s j wb) in *. clearbody wg. destruct G as [[N1 [N2 [N3 N4]]] [[U1 U2] [[Q1 Q2] [Co [Re [u [q [d E]]]]]]]].
  set (ws := on j (give_settings s) wg).
  assert (Es : w_m ws j = give_settings s (w_m wg j)) by (unfold ws; apply on_same).
  assert (Eb : w_m wb j = blank) by (unfold wb; apply on_same). rewrite Eb in E. cbn in E.
  rewrite E in U1, U2, Q1, Q2, Co, Re. cbn [m_uca m_qca m_uco] in U1, U2, Q1, Q2, Co.
  assert (T : m_tree (w_m ws j) = None) by (rewrite Es, E; reflexivity).
  pose proof (unmangle_no_tree j ws T) as [R [K [Fl [Rw B]]]]. set (w' := fst (unmangle j true ws)) in *.
  destruct R as [R1 [R2 [R3 R4]]]. pose proof K as K0.
  destruct K as [K1[K2[K3[K4[K5[K6[K7[K8[K9[KA[KB[KC[KD[KE[KF[KG KH]]]]]]]]]]]]]]]].
  rewrite Es, E in K1, K2, K3, K4, K5, K6, K7, K8, K9, KA, KB, KC, KD, KE, KF, KG, KH, Fl.
  cbn [give_settings set_pars set_place set_avail set_wt set_choice set_scale m_uca m_qca m_uco m_qs m_ls m_cca m_cco m_ccode m_cany m_wt m_av
       m_avco m_avany m_graph m_type m_tree m_cons m_flows] in K1, K2, K3, K4, K5, K6, K7, K8, K9, KA, KB, KC, KD, KE, KF, KG, KH, Fl.
  unfold dumps in D. destruct made; [|discriminate]. injection D as Ds.
  assert (Fw : w_f w' = w_f wg) by (rewrite R1; reflexivity).
  assert (A : alike w i w' j).
  { unfold alike. rewrite K1, K2, K3, Fw. rewrite <- Ds in *. cbn in U1, Q1, Co, K4, K5, K6, K7, K8, K9, KA, KB, KC, KD, KE, KF.
    split; [exact U1|]. split; [exact Q1|]. split; [|repeat split; assumption].
    exact (pairs_forall2 (fun r => f_terms (w_f wg r)) (fun r => f_terms (w_f w r)) _ _ Co). }
  split; [exact A|]. split; [|split; [|split; [|split; [|split; [|split; [|split; [|split]]]]]]]; auto.
  - split; [|split; [|split]].
    + intros k Kk. rewrite R4 by auto. unfold ws. rewrite on_other by auto. rewrite N1 by auto. unfold wb. now apply on_other.
    + intros r Rr. rewrite Fw. now apply N2.
    + rewrite R3. exact N3.
    + rewrite R2. exact N4.
  - intro x. rewrite Rw. unfold named. rewrite Es, E. cbn [give_settings set_pars m_frame].
    replace (s_frame s) with (m_frame (w_m w i)) by (now rewrite <- Ds).
    destruct (row (m_frame (w_m w i)) x); [reflexivity|].
    assert (T1 : f_terms (w_f ws u) = f_terms (w_f w (m_uca (w_m w i)))) by (change (w_f ws) with (w_f wg); rewrite U1, <- Ds; reflexivity).
    assert (T2 : f_terms (w_f ws q) = f_terms (w_f w (m_qca (w_m w i)))) by (change (w_f ws) with (w_f wg); rewrite Q1, <- Ds; reflexivity).
    assert (T3 : flat_map (fun kr => f_terms (w_f ws (snd kr))) d = flat_map (fun kr => f_terms (w_f w (snd kr))) (m_uco (w_m w i))).
    { change (w_f ws) with (w_f wg). rewrite <- Ds in Co. cbn [s_uco] in Co. revert Co. generalize (m_uco (w_m w i)) as l. clear.
      induction d as [|x d IH]; intros [|y l] H; cbn in H; try discriminate; [reflexivity|]. injection H as _ H1 H2. cbn. rewrite H1. f_equal. now apply IH. }
    unfold in_utility, in_scale. cbn [give_settings set_pars set_place set_avail set_wt set_choice set_scale m_uca m_qca m_uco m_graph m_qs m_ls].
    rewrite T1, T2, T3. replace (s_graph s) with (m_graph (w_m w i)) by (now rewrite <- Ds).
    replace (s_qs s) with (m_qs (w_m w i)) by (now rewrite <- Ds). replace (s_ls s) with (m_ls (w_m w i)) by (now rewrite <- Ds). reflexivity.
  - apply (built_ext ws w').
    + intros r _. now rewrite Fw.
    + intros t _. now rewrite R3.
    + exact B.
  - intros r Rr. rewrite R2. apply Re. unfold reach in *. rewrite K1, K2, K3 in Rr. exact Rr.
  - rewrite K1, Fw. exact U2.
  - rewrite K2, Fw. exact Q2.
Qed.
(** The answer wanted depends on the settings alone. *)
Lemma alike_wanted : forall w i w' j t, alike w i w' j -> (forall x, named w' (w_m w' j) x = named w (w_m w i) x) ->
  wanted_at w' (w_m w' j) t = wanted_at w (w_m w i) t.
Proof.
  intros w i w' j t [A1[A2[A3[A4[A5[A6[A7[A8[A9[AA[AB[AC[AD[AE AF]]]]]]]]]]]]]] N. unfold wanted_at.
  assert (Al : alternatives (w_m w' j) t = alternatives (w_m w i) t) by (unfold alternatives; now rewrite AE).
  assert (Ch : chosen (w_m w' j) t = chosen (w_m w i) t) by (unfold chosen; now rewrite A6, A7, A8, Al).
  assert (An : any_available (w_m w' j) = any_available (w_m w i)) by (unfold any_available; now rewrite AB, AC, AD).
  assert (Wt : weighted (w_m w' j) t = weighted (w_m w i) t) by (unfold weighted; now rewrite AA).
  assert (Av : available (w_m w' j) t = available (w_m w i) t) by (unfold available; now rewrite AB, AC, Al).
  rewrite Ch, An, Al, Wt, Av, A1, A2, A4, AE, AF. destruct (chosen (w_m w i) t); [|reflexivity]. destruct (any_available (w_m w i)); [reflexivity|].
  assert (F : forallb (fun kr => existsb (fun a => (a =? fst kr)%Z) (alternatives (w_m w i) t)) (m_uco (w_m w' j)) =
              forallb (fun kr => existsb (fun a => (a =? fst kr)%Z) (alternatives (w_m w i) t)) (m_uco (w_m w i))).
  { clear - A3. induction A3 as [|x y a b [H _] _ IH]; [reflexivity|]. cbn [forallb]. now rewrite H, IH. }
  rewrite F. destruct (negb _); [reflexivity|].
  assert (G : forall g : Z -> comp -> nat * R * option R * option (option col),
    flat_map (fun kr => map (g (fst kr)) (f_terms (w_f w' (snd kr)))) (m_uco (w_m w' j)) =
    flat_map (fun kr => map (g (fst kr)) (f_terms (w_f w (snd kr)))) (m_uco (w_m w i))).
  { intro g. clear - A3. induction A3 as [|x y a b [H1 H2] _ IH]; [reflexivity|]. cbn [flat_map]. now rewrite H1, H2, IH. }
  destruct (text (m_qs (w_m w i))) as [q|].
  - rewrite !N. destruct (named w (w_m w i) q); [|reflexivity]. f_equal. f_equal.
    + apply map_ext. intro y. now rewrite N.
    + apply map_ext. intro y. now rewrite N.
    + rewrite <- (G (fun k c => (place k (alternatives (w_m w i) t), c_scale c, named w (w_m w i) (c_par c),
          if String.eqb (c_data c) "1" then None else Some (Some (t_col t (c_data c)))))).
      apply flat_map_ext'. intro kr. apply map_ext. intro y. now rewrite N.
    + apply map_ext. intros [k [p|]]; cbn [snd]; [now rewrite N|reflexivity].
  - f_equal. f_equal.
    + apply map_ext. intro y. now rewrite N.
    + apply map_ext. intro y. now rewrite N.
    + rewrite <- (G (fun k c => (place k (alternatives (w_m w i) t), c_scale c, named w (w_m w i) (c_par c),
          if String.eqb (c_data c) "1" then None else Some (Some (t_col t (c_data c)))))).
      apply flat_map_ext'. intro kr. apply map_ext. intro y. now rewrite N.
    + apply map_ext. intros [k [p|]]; cbn [snd]; [now rewrite N|reflexivity].
Qed.

(** ** C72 *)
(** The restored model has the settings and the parameter values of the one that was saved, functions of its own, no data and
    no constraints; the rest of the session is as it was. *)
Theorem C72_restored : forall made i w s j, dumps made i w = Some s ->
  let w' := loads s j w in
  alike w i w' j /\ (forall x, row (m_frame (w_m w' j)) x = named w (w_m w i) x) /\
  m_tree (w_m w' j) = None /\ m_cons (w_m w' j) = [] /\
  (forall p r, object (w_m w' j) p = Some r -> (w_next w <= r)%nat) /\
  only_new j w w'.
Proof.
  intros made i w s j D w'. destruct (loads_ok made i w s j D) as [A [N [Rw [C [T [_ [_ [Re _]]]]]]]].
  split; [exact A|]. split; [exact Rw|]. split; [exact T|]. split; [exact C|]. split; [|exact N].
  intros p r O. apply (Re r). now apply object_reach with p.
Qed.
(** Given the data again, it gives the answer its settings, and so those of the original, ask for. *)
Theorem C72_same_answers : forall made i w s j t, dumps made i w = Some s -> m_tree (w_m w i) = Some t ->
  answer (act (OTree j (Some t)) (loads s j w)) j = wanted w i.
Proof.
  intros made i w s j t D T. destruct (loads_ok made i w s j D) as [A [N [Rw [C [T' [Fl _]]]]]].
  set (w1 := loads s j w) in *.
  assert (E : w_m (act (OTree j (Some t)) w1) j = mangle (set_place (m_graph (w_m w1 j)) (m_type (w_m w1 j)) (Some t) (w_m w1 j))).
  { cbn [act]. rewrite on_same. now rewrite T'. }
  rewrite C67_nothing_compiled.
  - rewrite !wanted_unfold, T, E. cbn [mangle set_built set_place m_tree].
    replace (w_t (act (OTree j (Some t)) w1)) with (w_t w) by (destruct N as [_ [_ [N _]]]; now rewrite <- N).
    rewrite <- E. apply alike_wanted.
    + unfold alike in *. rewrite E. cbn [act on w_f]. exact A.
    + intro x. rewrite E.
      assert (Q : named (act (OTree j (Some t)) w1) (mangle (set_place (m_graph (w_m w1 j)) (m_type (w_m w1 j)) (Some t) (w_m w1 j))) x = named w1 (w_m w1 j) x)
        by reflexivity.
      rewrite Q. unfold named at 1. rewrite Rw. destruct (named w (w_m w i) x) eqn:Nx; [reflexivity|].
      unfold named in Nx. destruct (row (m_frame (w_m w i)) x); [discriminate|].
      destruct A as [A1[A2[A3[A4[A5[A6[A7[A8[A9[AA[AB[AC[AD[AE AF]]]]]]]]]]]]]].
      assert (U : in_utility w1 (w_m w1 j) x = in_utility w (w_m w i) x).
      { unfold in_utility. rewrite A1, A2. replace (flat_map (fun kr => f_terms (w_f w1 (snd kr))) (m_uco (w_m w1 j)))
          with (flat_map (fun kr => f_terms (w_f w (snd kr))) (m_uco (w_m w i))); [reflexivity|].
        clear - A3. induction A3 as [|y z a b [_ H] _ IH]; [reflexivity|]. cbn [flat_map]. now rewrite H, IH. }
      assert (V : in_scale w1 (w_m w1 j) x = in_scale w (w_m w i) x) by (unfold in_scale; now rewrite A2, A4, A5, AE).
      rewrite U, V. destruct (in_utility w (w_m w i) x); [discriminate|]. destruct (in_scale w (w_m w i) x); [discriminate|reflexivity].
  - rewrite E. apply mangle_idle.
  - intros t' fl key tag defs f _ Q. rewrite E in Q. cbn [mangle set_built set_place m_flows] in Q. congruence.
Qed.
(** In a session in which every change is heard, that is the answer the original gives. *)
Theorem C72_same_as_original : forall n w0 ops made i s j t, start n w0 -> heard_run n w0 ops -> (i < n)%nat ->
  let w := run ops w0 in
  dumps made i w = Some s -> m_tree (w_m w i) = Some t ->
  answer (act (OTree j (Some t)) (loads s j w)) j = answer w i.
Proof.
  intros n w0 ops made i s j t S' H I w D T. rewrite (C72_same_answers made i w s j t D T). symmetry.
  now apply (C67_changes_take_effect n).
Qed.
(** The restored model and the others can be worked with as before, and independently: every change takes effect. *)
Lemma loads_inv : forall n made i w s, inv n w -> (i < n)%nat -> dumps made i w = Some s -> inv (S n) (loads s n w).
Proof.
  intros n made i w s V I D. destruct (loads_ok made i w s n D) as [A [[N1 [N2 [N3 N4]]] [Rw [C [T [Fl [B [Re [O1 O2]]]]]]]]].
  set (w1 := loads s n w) in *.
  assert (Old : forall k, (k < n)%nat -> w_m w1 k = w_m w k) by (intros k K; apply N1; lia).
  assert (Case : forall k, (k < S n)%nat -> k = n \/ (k < n)%nat) by (intros; lia).
  split.
  - intros k K. destruct (Case k K) as [->|K']; [exact B|]. rewrite (Old k K'). apply (built_ext w w1).
    + intros r R. rewrite N2; [reflexivity|]. exact (v_refs n w V k r K' R).
    + intros u _. now rewrite N3.
    + exact (v_built n w V k K').
  - intros k K. destruct (Case k K) as [->|K']; [|rewrite (Old k K'); exact (v_excl n w V k K')].
    pose proof (v_excl n w V i I) as X. destruct A as [_[_[_[_[_[A6[A7[A8[A9[AA[AB[AC[AD _]]]]]]]]]]]]].
    unfold excl in *. now rewrite A6, A7, A8, A9, AB, AC, AD.
  - intros k r K R. destruct (Case k K) as [->|K']; [now apply Re|]. rewrite (Old k K') in R. pose proof (v_refs n w V k r K' R). lia.
  - intros k K. destruct (Case k K) as [->|K']; [auto|]. rewrite (Old k K').
    destruct (v_own n w V k K') as [P1 P2]. rewrite !N2; auto; apply (v_refs n w V k); auto; unfold reach; auto.
  - intros k l r K L Ne Rk Rl. destruct (Case k K) as [->|K'], (Case l L) as [->|L']; [contradiction| | |].
    + rewrite (Old l L') in Rl. pose proof (v_refs n w V l r L' Rl). destruct (Re r Rk). lia.
    + rewrite (Old k K') in Rk. pose proof (v_refs n w V k r K' Rk). destruct (Re r Rl). lia.
    + rewrite (Old k K') in Rk. rewrite (Old l L') in Rl. exact (v_apart n w V k l r K' L' Ne Rk Rl).
Qed.
Theorem C72_lives_on : forall n w0 ops made i s ops', start n w0 -> heard_run n w0 ops -> (i < n)%nat ->
  dumps made i (run ops w0) = Some s ->
  let w := loads s n (run ops w0) in
  heard_run (S n) w ops' -> forall k, (k <= n)%nat -> answer (run ops' w) k = wanted (run ops' w) k.
Proof.
  intros n w0 ops made i s ops' S' H I D w H' k K. apply eval_built.
  - apply (v_built (S n)); [|lia]. apply run_inv; [|exact H']. apply (loads_inv n made i); auto.
    apply run_inv; [now apply start_inv|exact H].
  - apply (heard_last (S n) ops' w); [exact H'|lia].
Qed.
(** Constraints are lost: the restored model has none, so its penalized likelihood is not the original's. *)
Theorem C72_constraints_lost_refuted : exists w ops s, start 2 w /\ heard_run 2 w ops /\ let w1 := run ops w in
  dumps true 0 w1 = Some s /\ m_tree (w_m w1 0) = Some 0 /\
  option_map v_cons (snd (eval 0 w1)) = Some [2%R] /\
  option_map v_cons (snd (eval 2 (act (OTree 2 (Some 0)) (loads s 2 w1)))) = Some [].
Proof.
  exists w0, valued. destruct (dumps true 0 (run valued w0)) as [s|] eqn:D; [|discriminate D]. exists s. split; [exact w0_start|]. split.
  { apply heard_check0; [vm_compute; reflexivity|]. cbn [valued base app heard_from].
    repeat (match goal with |- heard _ _ _ /\ _ => split; [heard_tac|] end); exact I. }
  cbv zeta. split; [exact D|]. split; [vm_compute; reflexivity|]. split; [vm_compute; reflexivity|].
  vm_compute in D. injection D as <-. vm_compute. reflexivity.
Qed.
(** copy() of a model without a data service fails, though the model can be saved and restored. *)
Theorem C72_copy_refuted : exists w ops, start 2 w /\ heard_run 2 w ops /\ let w1 := run ops w in
  answer w1 0 <> None /\ dumps true 0 w1 <> None /\ forall made j, snd (copy made false 0 j w1) = false.
Proof.
  exists w0, base. split; [exact w0_start|]. split; [session_tac|]. cbv zeta. split; [vm_compute; discriminate|].
  split; [discriminate|]. intros made j. unfold copy. destruct (dumps made 0 _); reflexivity.
Qed.
(** A copy that does not fail is the saved model restored. *)
Theorem C72_copy : forall made service i j w, snd (copy made service i j w) = true ->
  exists s, dumps made i w = Some s /\ fst (copy made service i j w) = loads s j w.
Proof.
  intros made service i j w H. unfold copy in *. destruct (dumps made i w) as [s|]; [|discriminate]. exists s. split; reflexivity.
Qed.
(** Model.load of anything but a workbook never gives a model. *)
Theorem C72_load_refuted : forall ext, ext <> ".xlsx" -> forall b, load_file b ext <> FromExcel.
Proof.
  intros ext N b. unfold load_file. destruct (negb b); [discriminate|]. destruct (String.eqb_spec ext ".xlsx"); [contradiction|discriminate].
Qed.

(** ** Cases that meet the hypotheses *)
Example busy_restored : let w := run busy w0 in exists s, dumps true 0 w = Some s /\ m_tree (w_m w 0) = Some 0 /\ answer w 0 <> None /\
  answer (act (OTree 2 (Some 0)) (loads s 2 w)) 2 = answer w 0 /\
  option_map (fun g => (length (v_ca g), length (v_q g), length (v_co g))) (answer (act (OTree 2 (Some 0)) (loads s 2 w)) 2) = Some (2, 1, 1).
Proof.
  cbv zeta. destruct (dumps true 0 (run busy w0)) as [s|] eqn:D; [|discriminate D]. exists s. split; [reflexivity|].
  assert (T : m_tree (w_m (run busy w0) 0) = Some 0) by (vm_compute; reflexivity). split; [exact T|].
  destruct busy_answer as [E [W L]]. split; [now rewrite E|].
  pose proof (C72_same_answers true 0 (run busy w0) s 2 0 D T) as Q. rewrite Q, E. split; [reflexivity|exact L].
Qed.
(** A value set and a term added in the restored model are seen there and not in the original. *)
Definition later : list op := [OTree 2 (Some 0); OSetValue 2 "b" 5; OEdit 2 PCa (EAppend (mkComp "new" "x" 1)); OEval 2; OEdit 0 (PCo 2) (EAppend cx); OEval 0].
Example later_heard : exists s, dumps true 0 (run base w0) = Some s /\ heard_run 3 (loads s 2 (run base w0)) later /\
  let w := run later (loads s 2 (run base w0)) in
  s_ca (answer w 2) = Some 2 /\ s_ca (answer w 0) = Some 1 /\ s_co (answer w 0) = Some 2 /\ s_co (answer w 2) = Some 1 /\
  row (m_frame (w_m w 2)) "b" = Some 5%R /\ row (m_frame (w_m w 0)) "b" = Some 0%R.
Proof.
  destruct (dumps true 0 (run base w0)) as [s|] eqn:D; [|discriminate D]. exists s. split; [reflexivity|].
  vm_compute in D. injection D as <-. split.
  - apply heard_check0; [vm_compute; reflexivity|]. cbn [later heard_from].
    repeat (match goal with |- heard _ _ _ /\ _ => split; [cbn [heard]; try (split; [lia|try (right; exact I)]); try lia|] end); exact I.
  - cbv zeta. repeat split; vm_compute; reflexivity.
Qed.
