(** Proofs: effect of the whole loop under any distribution of cases and any interleaving. *)
From Coq Require Import Lra.
From Verif Require Export SchedKernel RangeProofs.
Open Scope R_scope.

Section CaseEffect.
Variables (d : data) (o : opts) (t : nat) (c : Z).
Notation n := (d_alts d). Notation np := (d_params d).
Notation cl := (cell o t c). Notation lo := (local t).

(** What a case contributes to the totals. *)
Definition acc_ll : option R := if selected o c && negb (o_only o) then case_ll d c else Some 0.
Definition acc_dll (v : nat) : R := if selected o c && negb (o_only o) && want_dll o then case_dll d c v else 0.
Definition acc_bhhh (v w : nat) : R := if selected o c && negb (o_only o) && o_bhhh o then case_bhhh d c v w else 0.

Record case_spec (m m' : mem) : Prop := mkCS {
  cs_ll : m' (lo SLL 0 0) = oplus (m (lo SLL 0 0)) acc_ll;
  cs_dll : forall v, (v < np)%nat -> m' (lo ADLLtot v 0) = oplus (m (lo ADLLtot v 0)) (Some (acc_dll v));
  cs_bhhh : forall v w, (v < np)%nat -> (w < np)%nat -> m' (lo ABhhh v w) = oplus (m (lo ABhhh v w)) (Some (acc_bhhh v w));
  cs_llc : m' (cl ALLc 0 0) = oplus (m (cl ALLc 0 0)) acc_ll;
  cs_dllc : forall v, (v < np)%nat -> (d_wt d c <> 0 \/ m (cl ADLLc v 0) = Some 0) ->
     (selected o c && negb (o_only o) && want_dll o)%bool = true -> m' (cl ADLLc v 0) = Some (case_dll d c v);
  cs_u : selected o c = true -> has_u d o t c m';
  cs_e : selected o c = true -> has_e d o t c m';
  cs_p : selected o c = true -> has_p d o t c m';
  cs_du : selected o c = true -> want_dll o = true -> has_du d o t c m' }.

Lemma case_dll_wch v : Rsum (fun a => wch d c a * sc d c a v) (seq 0 n) = case_dll d c v.
Proof. unfold case_dll. rewrite <- Rsum_scale. apply Rsum_ext. intros a _. unfold wch, sc. ring. Qed.
Lemma case_bhhh_wch v w : Rsum (fun a => wch d c a * (sc d c a v * sc d c a w)) (seq 0 n) = case_bhhh d c v w.
Proof. unfold case_bhhh. rewrite <- Rsum_scale. apply Rsum_ext. intros a _. unfold wch, sc. ring. Qed.

Lemma utility_frame m l : fst (fst l) <> AU -> fst (fst l) <> ADU -> run (utility_prog d o t c) m l = m l.
Proof.
  destruct l as [[a r] ij]. cbn [fst]. intros N1 N2. apply run_arr. unfold utility_prog.
  repeat first [apply Forall_app; split|apply Forall_fm; intros ?|apply Forall_map'; intros ?; unfold arr_of; cbn; congruence|match goal with |- Forall _ (if ?b then _ else _) => destruct b end|apply Forall_nil].
Qed.
Lemma probability_frame m l : fst (fst l) <> AE -> fst (fst l) <> AP -> fst (fst l) <> SSum -> run (probability_prog d o t c) m l = m l.
Proof.
  destruct l as [[a r] ij]. cbn [fst]. intros N1 N2 N3. apply run_arr. unfold probability_prog.
  constructor; [unfold arr_of; cbn; congruence|]. apply Forall_app; split.
  - apply Forall_fm. intros i. repeat constructor; unfold arr_of; cbn; congruence.
  - apply Forall_map'. intros i. unfold arr_of; cbn; congruence.
Qed.

Lemma grad_effect m : has_pd d o t c m ->
  let m' := run (grad_prog d o t c) m in
  (forall v, (v < np)%nat -> m' (lo ADLLtot v 0) = oplus (m (lo ADLLtot v 0)) (Some (case_dll d c v))) /\
  (forall v w, (v < np)%nat -> (w < np)%nat -> m' (lo ABhhh v w) = oplus (m (lo ABhhh v w)) (Some (if o_bhhh o then case_bhhh d c v w else 0))) /\
  (forall v, (v < np)%nat -> (d_wt d c <> 0 \/ m (cl ADLLc v 0) = Some 0) -> m' (cl ADLLc v 0) = Some (case_dll d c v)) /\
  (forall l, grad_arrays (fst (fst l)) = false -> fst (fst l) <> ABhhh -> m' l = m l).
Proof.
  intros H. unfold grad_prog. destruct (Req_EM_T (d_wt d c) 0) as [Z|NZ].
  - cbn [run fold_left]. unfold case_dll, case_bhhh. rewrite Z. cbv zeta. repeat split; intros.
    + rewrite Rmult_0_l, oplus_0_r. auto.
    + rewrite Rmult_0_l. destruct (o_bhhh o); rewrite oplus_0_r; auto.
    + rewrite Rmult_0_l. destruct H1; [contradiction|auto].
  - rewrite run_app. set (m1 := run (map (fun v => (cl ADLLc v 0, fun _ : mem => Some 0)) (seq 0 np)) m).
    assert (O1 : forall l, fst (fst l) <> ADLLc -> m1 l = m l).
    { intros [[a r] ij] Hl. unfold m1. apply run_arr. apply Forall_map'. intros v. unfold arr_of. cbn in *. congruence. }
    assert (C1 : forall v, (v < np)%nat -> m1 (cl ADLLc v 0) = Some 0).
    { intros v Hv. unfold m1. apply (run_const (fun v => cl ADLLc v 0) (fun _ => Some 0)); auto. apply in_seq. lia. }
    assert (P1 : has_pd d o t c m1).
    { destruct H as [Hp Hd]. split; [intros i Hi|intros i v Hi Hv]; rewrite O1 by discriminate; auto. }
    destruct (grad_alts_effect d o t c (seq 0 n) m1 ltac:(intros a Ha; apply in_seq in Ha; lia) P1) as [P2 C2 T2 B2 O2].
    cbv zeta. repeat split.
    + intros v Hv. rewrite T2, O1 by (auto; discriminate). rewrite case_dll_wch. auto.
    + intros v w Hv Hw. rewrite B2, O1 by (auto; discriminate). rewrite case_bhhh_wch. auto.
    + intros v Hv _. rewrite C2, C1, oplus_0_l by auto. rewrite case_dll_wch. auto.
    + intros l N1 N2. rewrite O2 by auto. apply O1. intros E. rewrite E in N1. discriminate.
Qed.

Theorem case_effect m : case_spec m (run (case_prog d o t c) m).
Proof.
  unfold case_prog. destruct (selected o c) eqn:Es.
  2:{ cbn [run fold_left]. constructor; intros; unfold acc_ll, acc_dll, acc_bhhh; rewrite ?Es; cbn [andb negb]; rewrite ?oplus_0_r; auto; try congruence; rewrite Es in *; discriminate. }
  rewrite !run_app. set (m1 := run (utility_prog d o t c) m).
  destruct (utility_effect d o t c m) as [U1 D1]. fold m1 in U1, D1.
  destruct (probability_effect d o t c m1 U1) as [P2 [E2 [U2 D2]]]. set (m2 := run (probability_prog d o t c) m1) in *.
  assert (F2 : forall l, (match fst (fst l) with AU | ADU | AE | AP | SSum => false | _ => true end) = true -> m2 l = m l).
  { intros l Hl. unfold m2, m1. rewrite probability_frame, utility_frame; auto; intros E; rewrite E in Hl; discriminate. }
  destruct (o_only o) eqn:Eo.
  - cbn [run fold_left]. constructor; intros; unfold acc_ll, acc_dll, acc_bhhh; rewrite ?Eo, ?andb_false_r; cbn [andb negb]; rewrite ?oplus_0_r; auto;
      try (apply F2; reflexivity).
    match goal with H : (_ && _ && _)%bool = true |- _ => rewrite Eo in H; cbn [negb] in H; rewrite andb_false_r in H; discriminate end.
  - rewrite run_app. destruct (loglike_effect d o t c m2 P2) as [L3 [C3 O3]]. set (m3 := run (loglike_prog d o t c) m2) in *.
    assert (A : acc_ll = case_ll d c) by (unfold acc_ll; rewrite Es, Eo; auto).
    assert (P3 : has_p d o t c m3) by (intros i Hi; rewrite O3 by discriminate; auto).
    assert (U3 : has_u d o t c m3) by (intros i Hi; rewrite O3 by discriminate; auto).
    assert (E3 : has_e d o t c m3) by (intros i Hi; rewrite O3 by discriminate; auto).
    destruct (want_dll o) eqn:Ew.
    + specialize (D1 eq_refl). specialize (D2 D1).
      assert (D3 : has_du d o t c m3) by (intros i v Hi Hv; rewrite O3 by discriminate; auto).
      destruct (grad_effect m3 (conj P3 D3)) as [T4 [B4 [C4 O4]]]. set (m4 := run (grad_prog d o t c) m3) in *.
      constructor.
      * rewrite O4 by (reflexivity || discriminate). rewrite L3, A, F2 by reflexivity. auto.
      * intros v Hv. rewrite T4, O3, F2 by (auto; reflexivity || discriminate). unfold acc_dll. rewrite Es, Eo, Ew. auto.
      * intros v w Hv Hw. rewrite B4, O3, F2 by (auto; reflexivity || discriminate). unfold acc_bhhh. rewrite Es, Eo. auto.
      * rewrite O4 by (reflexivity || discriminate). rewrite C3, A, F2 by reflexivity. auto.
      * intros v Hv Hz _. apply C4; auto. rewrite O3, F2 by (auto; reflexivity || discriminate). auto.
      * intros _ i Hi. rewrite O4 by (reflexivity || discriminate). auto.
      * intros _ i Hi. rewrite O4 by (reflexivity || discriminate). auto.
      * intros _ i Hi. rewrite O4 by (reflexivity || discriminate). auto.
      * intros _ _ i v Hi Hv. rewrite O4 by (reflexivity || discriminate). auto.
    + cbn [run fold_left]. constructor.
      * rewrite L3, A, F2 by reflexivity. auto.
      * intros v Hv. rewrite O3, F2 by (auto; reflexivity || discriminate). unfold acc_dll. rewrite Ew, andb_false_r, oplus_0_r. auto.
      * intros v w Hv Hw. rewrite O3, F2 by (auto; reflexivity || discriminate). unfold acc_bhhh.
        unfold want_dll in Ew. apply orb_false_iff in Ew. rewrite (proj2 Ew), andb_false_r, oplus_0_r. auto.
      * rewrite C3, A, F2 by reflexivity. auto.
      * intros v Hv Hz. rewrite Ew, andb_false_r. discriminate.
      * auto.
      * auto.
      * auto.
      * intros _ H; congruence.
Qed.

(** The rows of other cases stay as they are. *)
Lemma case_rows m a r ij : per_case a = true -> o_keep_arr o a = true -> r <> c_local o c ->
  run (case_prog d o t c) m (a, r, ij) = m (a, r, ij).
Proof.
  intros Ha Hk Hr. apply run_other. intros i Hi E.
  set (th := fun r' => if Nat.eqb r' (c_local o c) then t else S t).
  assert (C := case_prog_confined d o th t c ltac:(unfold th; rewrite Nat.eqb_refl; auto)).
  rewrite Forall_forall in C. destruct (C i Hi) as [C1 _]. rewrite E in C1. unfold owner in C1. cbn [fst snd] in C1.
  rewrite Ha, Hk in C1. cbn [andb] in C1. unfold th in C1. rewrite (proj2 (Nat.eqb_neq _ _)) in C1 by auto. lia.
Qed.
End CaseEffect.

(** * One thread *)
Section Thread.
Variables (d : data) (o : opts) (t : nat).
Lemma thread_ll cs : forall m, run (thread_prog d o t cs) m (local t SLL 0 0) = oplus (m (local t SLL 0 0)) (total (map (acc_ll d o) cs)).
Proof.
  induction cs as [|c cs IH]; intros m; [cbn; rewrite oplus_0_r; auto|]. unfold thread_prog. cbn [flat_map]. rewrite run_app. fold (thread_prog d o t cs).
  rewrite IH. rewrite (cs_ll _ _ _ _ _ _ (case_effect d o t c m)), oplus_assoc. reflexivity.
Qed.
Lemma thread_dll v cs : (v < d_params d)%nat -> forall m, run (thread_prog d o t cs) m (local t ADLLtot v 0) =
  oplus (m (local t ADLLtot v 0)) (Some (Rsum (fun c => acc_dll d o c v) cs)).
Proof.
  intros Hv. induction cs as [|c cs IH]; intros m; [cbn; rewrite oplus_0_r; auto|]. unfold thread_prog. cbn [flat_map]. rewrite run_app. fold (thread_prog d o t cs).
  rewrite IH. rewrite (cs_dll _ _ _ _ _ _ (case_effect d o t c m) v Hv), oplus_assoc. reflexivity.
Qed.
Lemma thread_bhhh v w cs : (v < d_params d)%nat -> (w < d_params d)%nat -> forall m, run (thread_prog d o t cs) m (local t ABhhh v w) =
  oplus (m (local t ABhhh v w)) (Some (Rsum (fun c => acc_bhhh d o c v w) cs)).
Proof.
  intros Hv Hw. induction cs as [|c cs IH]; intros m; [cbn; rewrite oplus_0_r; auto|]. unfold thread_prog. cbn [flat_map]. rewrite run_app. fold (thread_prog d o t cs).
  rewrite IH. rewrite (cs_bhhh _ _ _ _ _ _ (case_effect d o t c m) v w Hv Hw), oplus_assoc. reflexivity.
Qed.
Definition kept (a : arr) : Prop := per_case a = true /\ o_keep_arr o a = true.
Lemma thread_rows cs : forall m a r ij, kept a -> ~ In r (map (c_local o) cs) -> run (thread_prog d o t cs) m (a, r, ij) = m (a, r, ij).
Proof.
  induction cs as [|c cs IH]; intros m a r ij [Ha Hk] N; [auto|]. unfold thread_prog. cbn [flat_map]. rewrite run_app. fold (thread_prog d o t cs).
  rewrite IH; [apply case_rows; auto|split; auto|]; intros H; apply N; cbn [map]; [left|right]; auto.
Qed.
Lemma thread_row c cs : forall m, NoDup (map (c_local o) cs) -> In c cs ->
  exists m0, (forall a ij, kept a -> m0 (a, c_local o c, ij) = m (a, c_local o c, ij)) /\
  (forall a ij, kept a -> run (thread_prog d o t cs) m (a, c_local o c, ij) = run (case_prog d o t c) m0 (a, c_local o c, ij)).
Proof.
  intros m N Hin. apply in_split in Hin. destruct Hin as [l1 [l2 ->]]. rewrite map_app in N. cbn [map] in N.
  apply NoDup_remove_2 in N. exists (run (thread_prog d o t l1) m). split.
  - intros a ij K. apply thread_rows; auto. intros H. apply N. apply in_or_app. auto.
  - intros a ij K. unfold thread_prog. rewrite flat_map_app. cbn [flat_map]. rewrite !run_app. fold (thread_prog d o t l2). fold (thread_prog d o t l1).
    apply thread_rows; auto. intros H. apply N. apply in_or_app. auto.
Qed.
End Thread.

(** * Who owns a row *)
Fixpoint find_list (r : nat) (rows : list (list nat)) : nat :=
  match rows with [] => 0 | l :: rows => if in_dec Nat.eq_dec r l then 0 else S (find_list r rows) end.
Lemma find_list_ok r rows : forall t l, NoDup (concat rows) -> nth_error rows t = Some l -> In r l -> find_list r rows = t.
Proof.
  induction rows as [|x rows IH]; intros t l N E Hin; [destruct t; discriminate|].
  cbn [concat] in N. cbn [find_list]. destruct t as [|t].
  - injection E as ->. destruct (in_dec Nat.eq_dec r l); [auto|contradiction].
  - destruct (in_dec Nat.eq_dec r x) as [Hx|Hx].
    + exfalso. cbn [nth_error] in E. assert (Hc : In r (concat rows)) by (apply in_concat; exists l; split; [eapply nth_error_In; eauto|auto]).
      clear - N Hx Hc. induction x as [|y x IH]; [destruct Hx|]. cbn [app] in N. inversion N; subst. destruct Hx as [ ->|Hx]; auto.
      apply H1. apply in_or_app. auto.
    + f_equal. eapply IH; eauto. clear - N. induction x as [|y x IH]; auto. apply IH. inversion N; auto.
Qed.

Section Global.
Variables (d : data) (o : opts) (dist : list (list Z)) (stop : Z).
Hypothesis Hstep : (0 < o_step o)%Z.
Hypothesis Hdist : Permutation (concat dist) (case_range (o_start o) stop (o_step o)).

Lemma c_local_range : map (c_local o) (case_range (o_start o) stop (o_step o)) = seq 0 (length (case_range (o_start o) stop (o_step o))).
Proof.
  unfold case_range. rewrite map_map, map_length, seq_length. rewrite <- (map_id (seq 0 _)) at 2. apply map_ext. intros i. unfold c_local.
  replace (o_start o + Z.of_nat i * o_step o - o_start o)%Z with (Z.of_nat i * o_step o)%Z by lia. rewrite Z.div_mul by lia. apply Nat2Z.id.
Qed.
Lemma rows_nodup : NoDup (concat (map (map (c_local o)) dist)).
Proof.
  rewrite <- concat_map. apply (Permutation_NoDup (l := seq 0 (length (case_range (o_start o) stop (o_step o))))); [|apply seq_NoDup].
  rewrite <- c_local_range. apply Permutation_map. symmetry. auto.
Qed.
Definition th (r : nat) : nat := find_list r (map (map (c_local o)) dist).
Lemma th_ok t cs c : nth_error dist t = Some cs -> In c cs -> th (c_local o c) = t.
Proof.
  intros E Hin. unfold th. apply find_list_ok with (l := map (c_local o) cs); [apply rows_nodup|apply map_nth_error; auto|apply in_map; auto].
Qed.
Lemma combine_seq_nth {A} (l : list A) : forall k t, nth_error (combine (seq k (length l)) l) t = option_map (fun x => ((k + t)%nat, x)) (nth_error l t).
Proof.
  induction l as [|x l IH]; intros k t; [destruct t; reflexivity|]. cbn [length seq combine]. destruct t as [|t]; cbn [nth_error option_map].
  - rewrite Nat.add_0_r. auto.
  - rewrite IH. destruct (nth_error l t); cbn [option_map]; auto. do 2 f_equal. lia.
Qed.
Lemma threads_nth t cs : nth_error dist t = Some cs -> nth_error (threads d o dist) t = Some (thread_prog d o t cs).
Proof.
  intros E. unfold threads. rewrite nth_error_map, combine_seq_nth, E. reflexivity.
Qed.
Lemma threads_nth_inv t p : nth_error (threads d o dist) t = Some p -> exists cs, nth_error dist t = Some cs /\ p = thread_prog d o t cs.
Proof.
  unfold threads. rewrite nth_error_map, combine_seq_nth. destruct (nth_error dist t) as [cs|]; [|discriminate]. cbn. intros E. injection E as <-. eauto.
Qed.
Variable tr : list instr.
Hypothesis Htr : interleaving (threads d o dist) tr.
Lemma all_confined t p : nth_error (threads d o dist) t = Some p -> Forall (confined (owner o th) t) p.
Proof.
  intros E. apply threads_nth_inv in E. destruct E as [cs [E ->]]. unfold thread_prog. apply Forall_forall. intros i Hi.
  apply in_flat_map in Hi. destruct Hi as [c [Hc Hi]].
  exact (proj1 (Forall_forall _ _) (case_prog_confined d o th t c (th_ok t cs c E Hc)) i Hi).
Qed.
Lemma thread_view m t cs : nth_error dist t = Some cs -> agree (owner o th) t (run tr m) (run (thread_prog d o t cs) m).
Proof. intros E. apply (interleaving_local (owner o th) _ _ Htr all_confined m t). apply threads_nth. auto. Qed.

(** Sums over the threads are sums over the range. *)
Lemma total_concat (g : Z -> option R) ds : total (map (fun cs => total (map g cs)) ds) = total (map g (concat ds)).
Proof. induction ds as [|x ds IH]; auto. cbn [map concat]. rewrite map_app, total_app, <- IH. reflexivity. Qed.
Lemma seq_threads {A} (F : nat -> A) (G : list Z -> A) : (forall t cs, nth_error dist t = Some cs -> F t = G cs) ->
  map F (seq 0 (length dist)) = map G dist.
Proof.
  intros H. assert (L : forall k ds, (forall t cs, nth_error ds t = Some cs -> F (k + t)%nat = G cs) -> map F (seq k (length ds)) = map G ds).
  { intros k ds. revert k. induction ds as [|x ds IH]; intros k Hk; auto. cbn [length seq map]. f_equal.
    - rewrite <- (Hk 0%nat x eq_refl). f_equal. lia.
    - apply IH. intros t cs E. rewrite <- (Hk (S t) cs E). f_equal. lia. }
  apply (L 0%nat dist). exact H.
Qed.
Lemma Rsum_total {A} (f : A -> R) l : Some (Rsum f l) = total (map (fun x => Some (f x)) l).
Proof. symmetry. apply total_Some. Qed.
Lemma Rsum_map {A B} (g : A -> B) (f : B -> R) l : Rsum f (map g l) = Rsum (fun x => f (g x)) l.
Proof. induction l as [|x l IH]; auto. cbn [map]. rewrite !Rsum_cons, IH. auto. Qed.
Lemma Rsum_concat (g : Z -> R) ds : Rsum (fun cs => Rsum g cs) ds = Rsum g (concat ds).
Proof.
  induction ds as [|x ds IH]; auto. cbn [concat]. rewrite Rsum_cons, IH. clear. induction x as [|y x IH]; [cbn [app]; unfold Rsum at 1; cbn; lra|].
  cbn [app]. rewrite !Rsum_cons, <- IH. lra.
Qed.
Lemma Rsum_perm {A} (g : A -> R) l1 l2 : Permutation l1 l2 -> Rsum g l1 = Rsum g l2.
Proof. induction 1; rewrite ?Rsum_cons; auto; lra. Qed.

Notation range := (case_range (o_start o) stop (o_step o)).
Notation final := (run tr zeros).
Theorem global_ll : osum (map (fun t => final (SLL, t, (0, 0)%nat)) (seq 0 (length dist))) = total (map (acc_ll d o) range).
Proof.
  rewrite osum_total, (seq_threads _ (fun cs => total (map (acc_ll d o) cs))).
  - rewrite total_concat. apply total_perm. apply Permutation_map. auto.
  - intros t cs E. rewrite (thread_view zeros t cs E (SLL, t, (0, 0)%nat)); [|apply (owner_local o th t SLL 0 0); reflexivity].
    change (SLL, t, (0, 0)%nat) with (local t SLL 0 0). rewrite (thread_ll d o t cs zeros). unfold zeros. apply oplus_0_l.
Qed.
Theorem global_dll v : (v < d_params d)%nat -> rsum (map (fun t => rd final (ADLLtot, t, (v, 0)%nat)) (seq 0 (length dist))) = Rsum (fun c => acc_dll d o c v) range.
Proof.
  intros Hv. rewrite rsum_Rsum, (seq_threads _ (fun cs => Rsum (fun c => acc_dll d o c v) cs)).
  - rewrite Rsum_map. rewrite Rsum_concat. apply Rsum_perm. auto.
  - intros t cs E. unfold rd. rewrite (thread_view zeros t cs E (ADLLtot, t, (v, 0)%nat)); [|apply (owner_local o th t ADLLtot v 0); reflexivity].
    change (ADLLtot, t, (v, 0)%nat) with (local t ADLLtot v 0). rewrite (thread_dll d o t v cs Hv zeros). unfold zeros. rewrite oplus_0_l. auto.
Qed.
Theorem global_bhhh v w : (v < d_params d)%nat -> (w < d_params d)%nat ->
  rsum (map (fun t => rd final (ABhhh, t, (v, w)%nat)) (seq 0 (length dist))) = Rsum (fun c => acc_bhhh d o c v w) range.
Proof.
  intros Hv Hw. rewrite rsum_Rsum, (seq_threads _ (fun cs => Rsum (fun c => acc_bhhh d o c v w) cs)).
  - rewrite Rsum_map. rewrite Rsum_concat. apply Rsum_perm. auto.
  - intros t cs E. unfold rd. rewrite (thread_view zeros t cs E (ABhhh, t, (v, w)%nat)); [|apply (owner_local o th t ABhhh v w); reflexivity].
    change (ABhhh, t, (v, w)%nat) with (local t ABhhh v w). rewrite (thread_bhhh d o t v w cs Hv Hw zeros). unfold zeros. rewrite oplus_0_l. auto.
Qed.
Theorem global_row c : In c range -> exists t m0,
  (forall a ij, kept o a -> m0 (a, c_local o c, ij) = Some 0) /\
  (forall a ij, kept o a -> final (a, c_local o c, ij) = run (case_prog d o t c) m0 (a, c_local o c, ij)).
Proof.
  intros Hc. assert (Hc' : In c (concat dist)) by (eapply Permutation_in; [symmetry; exact Hdist|auto]).
  apply in_concat in Hc'. destruct Hc' as [cs [Hcs Hin]]. apply In_nth_error in Hcs. destruct Hcs as [t E].
  assert (N : NoDup (map (c_local o) cs)).
  { assert (N := rows_nodup). apply nth_error_split in E. destruct E as [d1 [d2 [E _]]]. rewrite E in N. rewrite map_app, concat_app in N. cbn [map concat] in N.
    assert (N2 : NoDup (map (c_local o) cs ++ concat (map (map (c_local o)) d2))).
    { clear - N. revert N. generalize (concat (map (map (c_local o)) d1)). induction l as [|y l IHl]; auto. cbn [app]. intros N. inversion N; auto. }
    clear - N2. rename N2 into N. induction cs as [|x cs IH]; [constructor|]. cbn [map app] in *. inversion N; subst. constructor; auto.
    intros H. apply H1. apply in_or_app. auto. }
  destruct (thread_row d o t c cs zeros N Hin) as [m0 [H1 H2]]. exists t, m0. split.
  - intros a ij K. rewrite H1 by auto. reflexivity.
  - intros a ij K. rewrite <- H2 by auto. apply (thread_view zeros t cs E). unfold owner. cbn [fst snd]. destruct K as [ -> ->]. cbn [andb].
    apply (th_ok t cs c E Hin).
Qed.
End Global.
