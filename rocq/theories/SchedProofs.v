(** Proofs: threads do not interfere, and what one thread computes. *)
From Coq Require Import Lra.
From Verif Require Export SchedSpec.
Open Scope R_scope.

(** * Stores *)
Lemma loc_eqb_eq a b : loc_eqb a b = true <-> a = b.
Proof.
  destruct a as [[a r] [i j]], b as [[b s] [k l]]. unfold loc_eqb. cbn [fst snd].
  destruct (arr_eq_dec a b) as [ ->|N].
  - rewrite !andb_true_iff, !Nat.eqb_eq. split; [intros [[ -> ->] ->]; auto|]. intros H. injection H. auto.
  - split; [discriminate|]. intros H. injection H. congruence.
Qed.
Lemma exec_same m i : exec m i (fst i) = snd i m.
Proof. unfold exec. rewrite (proj2 (loc_eqb_eq _ _)); auto. Qed.
Lemma exec_same' m l f : exec m (l, f) l = f m.
Proof. apply (exec_same m (l, f)). Qed.
Lemma exec_other m i l : l <> fst i -> exec m i l = m l.
Proof. intros H. unfold exec. destruct (loc_eqb l (fst i)) eqn:E; auto. apply loc_eqb_eq in E. contradiction. Qed.
Lemma run_app p q m : run (p ++ q) m = run q (run p m).
Proof. apply fold_left_app. Qed.
Lemma run_cons i p m : run (i :: p) m = run p (exec m i).
Proof. reflexivity. Qed.
Lemma run_other p : forall m l, (forall i, In i p -> fst i <> l) -> run p m l = m l.
Proof.
  induction p as [|i p IH]; intros m l H; [reflexivity|]. rewrite run_cons, IH by (intros; apply H; right; auto).
  apply exec_other. intros E. apply (H i); [left; auto|auto].
Qed.
Lemma run_const {A} (L : A -> loc) (f : A -> option R) : forall xs m x, In x xs ->
  (forall y, In y xs -> L y = L x -> f y = f x) -> run (map (fun x => (L x, fun _ => f x)) xs) m (L x) = f x.
Proof.
  induction xs as [|z xs IH]; intros m x Hin Hd; [destruct Hin|].
  cbn [map]. rewrite run_cons.
  destruct (in_dec (fun a b : loc => match Bool.bool_dec (loc_eqb a b) true with
     left e => left (proj1 (loc_eqb_eq a b) e) | right n => right (fun e => n (proj2 (loc_eqb_eq a b) e)) end) (L x) (map L xs)) as [Hi|Hn].
  - apply in_map_iff in Hi. destruct Hi as [y [Ey Hy]]. rewrite <- Ey, IH; auto.
    + apply Hd; [right; auto|auto].
    + intros w Hw Ew. rewrite (Hd w), (Hd y); auto; try (right; auto; fail). congruence.
  - rewrite run_other.
    + destruct Hin as [ ->|Hin]; [|exfalso; apply Hn; apply in_map; auto].
      rewrite exec_same'. reflexivity.
    + intros i Hi. apply in_map_iff in Hi. destruct Hi as [y [ <- Hy]]. cbn [fst]. intros E. apply Hn. rewrite <- E. apply in_map. auto.
Qed.

(** * Threads do not interfere *)
Section Interleave.
Variable owner : loc -> nat.
Definition agree (t : nat) (m m' : mem) : Prop := forall l, owner l = t -> m l = m' l.
Definition confined (t : nat) (i : instr) : Prop :=
  owner (fst i) = t /\ forall m m', agree t m m' -> snd i m = snd i m'.
Lemma confined_run t p : Forall (confined t) p -> forall m m', agree t m m' -> agree t (run p m) (run p m').
Proof.
  induction 1 as [|i p [Hi Hv] _ IH]; intros m m' A; [exact A|].
  rewrite !run_cons. apply IH. intros l Hl. unfold exec. rewrite (Hv m m' A). destruct (loc_eqb l (fst i)); auto.
Qed.
Lemma exec_elsewhere t s i m : confined s i -> s <> t -> agree t (exec m i) m.
Proof. intros [Hi _] N l Hl. apply exec_other. intros ->. congruence. Qed.

Theorem interleaving_local ps tr : interleaving ps tr ->
  (forall t p, nth_error ps t = Some p -> Forall (confined t) p) ->
  forall m t p, nth_error ps t = Some p -> agree t (run tr m) (run p m).
Proof.
  induction 1 as [ps E|l1 i p l2 tr _ IH]; intros C m t q Hq.
  - rewrite (E q) by (eapply nth_error_In; eauto). intros l _. reflexivity.
  - assert (C' : forall t p0, nth_error (l1 ++ p :: l2) t = Some p0 -> Forall (confined t) p0).
    { intros s p0 Hp0. destruct (Nat.eq_dec s (length l1)) as [ ->|N].
      - rewrite nth_error_app2, Nat.sub_diag in Hp0 by lia. injection Hp0 as <-.
        assert (H := C (length l1) (i :: p)). rewrite nth_error_app2, Nat.sub_diag in H by lia.
        specialize (H eq_refl). inversion H; auto.
      - apply C. destruct (Nat.lt_ge_cases s (length l1)) as [Hl|Hl].
        + rewrite nth_error_app1 in * by auto. auto.
        + rewrite nth_error_app2 in * by auto. destruct (s - length l1)%nat eqn:Es; [lia|]. auto. }
    assert (Hi : confined (length l1) i).
    { assert (H := C (length l1) (i :: p)). rewrite nth_error_app2, Nat.sub_diag in H by lia.
      specialize (H eq_refl). inversion H; auto. }
    rewrite run_cons. destruct (Nat.eq_dec t (length l1)) as [ ->|N].
    + rewrite nth_error_app2, Nat.sub_diag in Hq by lia. injection Hq as <-.
      rewrite run_cons. apply (IH C'). rewrite nth_error_app2, Nat.sub_diag by lia. reflexivity.
    + assert (Hq' : nth_error (l1 ++ p :: l2) t = Some q).
      { destruct (Nat.lt_ge_cases t (length l1)) as [Hl|Hl].
        - rewrite nth_error_app1 in * by auto. auto.
        - rewrite nth_error_app2 in * by auto. destruct (t - length l1)%nat eqn:Es; [lia|]. auto. }
      intros l Hl. rewrite (IH C' (exec m i) t q Hq' l Hl).
      apply confined_run with (t := t); auto. apply exec_elsewhere with (s := length l1); auto.
Qed.
Lemma interleaving_nobody ps tr : interleaving ps tr ->
  (forall t p, nth_error ps t = Some p -> Forall (confined t) p) ->
  forall m l, (length ps <= owner l)%nat -> run tr m l = m l.
Proof.
  induction 1 as [ps E|l1 i p l2 tr _ IH]; intros C m l Hl; [reflexivity|].
  assert (H0 := C (length l1) (i :: p)). rewrite nth_error_app2, Nat.sub_diag in H0 by lia. specialize (H0 eq_refl).
  inversion H0 as [|? ? Hi Hp]; subst.
  rewrite run_cons, IH.
  - apply exec_other. destruct Hi as [Hi _]. intros ->. rewrite Hi, app_length in Hl. cbn [length] in Hl. lia.
  - intros s p0 Hp0. destruct (Nat.eq_dec s (length l1)) as [ ->|N].
    + rewrite nth_error_app2, Nat.sub_diag in Hp0 by lia. injection Hp0 as <-. auto.
    + apply C. destruct (Nat.lt_ge_cases s (length l1)) as [Hs|Hs].
      * rewrite nth_error_app1 in * by auto. auto.
      * rewrite nth_error_app2 in * by auto. destruct (s - length l1)%nat eqn:Es; [lia|]. auto.
  - rewrite app_length in *. cbn [length] in *. lia.
Qed.
End Interleave.

(** * Ownership of the kernel's arrays *)
Definition per_case (a : arr) : bool :=
  match a with AU | AE | ACP | AP | ADU | ADP | ALLc | ADLLc => true | _ => false end.
Definition owner (o : opts) (th : nat -> nat) (l : loc) : nat :=
  if per_case (fst (fst l)) && o_keep_arr o (fst (fst l)) then th (snd (fst l)) else snd (fst l).
Definition c_local (o : opts) (c : Z) : nat := Z.to_nat ((c - o_start o) / o_step o).

Lemma owner_cell o th t c a i j : th (c_local o c) = t -> per_case a = true -> owner o th (cell o t c a i j) = t.
Proof. intros H Ha. unfold owner, cell, row. cbn [fst snd]. rewrite Ha. destruct (o_keep_arr o a); auto. Qed.
Lemma owner_local o th t a i j : per_case a = false -> owner o th (local t a i j) = t.
Proof. intros Ha. unfold owner, local. cbn [fst snd]. rewrite Ha. auto. Qed.

Section Confined.
Variables (d : data) (o : opts) (th : nat -> nat) (t : nat) (c : Z).
Hypothesis Hth : th (c_local o c) = t.
Notation ok := (confined (owner o th) t).
Lemma agree_cell m m' a i j : agree (owner o th) t m m' -> per_case a = true -> m (cell o t c a i j) = m' (cell o t c a i j).
Proof. intros A Ha. apply A. apply owner_cell; auto. Qed.
Lemma agree_local m m' a i j : agree (owner o th) t m m' -> per_case a = false -> m (local t a i j) = m' (local t a i j).
Proof. intros A Ha. apply A. apply owner_local; auto. Qed.
Lemma agree_rdc m m' a i j : agree (owner o th) t m m' -> per_case a = true -> rd m (cell o t c a i j) = rd m' (cell o t c a i j).
Proof. intros. unfold rd. rewrite (agree_cell m m') by auto. auto. Qed.
Lemma agree_rdl m m' a i j : agree (owner o th) t m m' -> per_case a = false -> rd m (local t a i j) = rd m' (local t a i j).
Proof. intros. unfold rd. rewrite (agree_local m m') by auto. auto. Qed.
Ltac okc := split; cbn [fst snd];
  [first [apply owner_cell; [exact Hth|reflexivity]|apply owner_local; reflexivity]
  |intros m m' A;
   repeat (first [rewrite (agree_rdc m m' _ _ _ A) by reflexivity|rewrite (agree_rdl m m' _ _ _ A) by reflexivity
                 |rewrite (agree_cell m m' _ _ _ A) by reflexivity|rewrite (agree_local m m' _ _ _ A) by reflexivity]);
   reflexivity].
Lemma Forall_map' {A B} (P : B -> Prop) (f : A -> B) l : (forall x, P (f x)) -> Forall P (map f l).
Proof. intros H. apply Forall_forall. intros y Hy. apply in_map_iff in Hy. destruct Hy as [x [ <- _]]. auto. Qed.
Lemma Forall_fm {A B} (P : B -> Prop) (f : A -> list B) l : (forall x, Forall P (f x)) -> Forall P (flat_map f l).
Proof.
  intros H. apply Forall_forall. intros y Hy. apply in_flat_map in Hy. destruct Hy as [x [_ Hx]].
  exact (proj1 (Forall_forall P (f x)) (H x) y Hx).
Qed.
Lemma case_prog_confined : Forall ok (case_prog d o t c).
Proof.
  unfold case_prog. destruct (selected o c); [|constructor].
  apply Forall_app; split; [|apply Forall_app; split].
  - unfold utility_prog. repeat (apply Forall_app; split).
    + apply Forall_map'. intros i. okc.
    + destruct (want_dll o); [|constructor]. apply Forall_fm. intros i. apply Forall_map'. intros v. okc.
    + apply Forall_map'. intros i. okc.
    + destruct (want_dll o); [|constructor]. apply Forall_fm. intros i. apply Forall_map'. intros v. okc.
  - unfold probability_prog. constructor; [okc|]. apply Forall_app; split.
    + apply Forall_fm. intros i. constructor; [okc|constructor; [okc|constructor]].
    + apply Forall_map'. intros i. okc.
  - destruct (o_only o); [constructor|]. apply Forall_app; split.
    + unfold loglike_prog. constructor; [okc|]. apply Forall_app; split.
      * apply Forall_map'. intros i. okc.
      * constructor; [okc|constructor; [okc|constructor; [okc|constructor]]].
    + destruct (want_dll o); [|constructor]. unfold grad_prog. destruct (Req_EM_T (d_wt d c) 0); [constructor|].
      apply Forall_app; split.
      * apply Forall_map'. intros v. okc.
      * apply Forall_fm. intros a. unfold grad_alt. destruct (Req_EM_T _ 0); [constructor|].
        repeat (apply Forall_app; split).
        -- apply Forall_map'. intros v. okc.
        -- apply Forall_fm. intros i. apply Forall_fm. intros v. unfold grad_cell.
           constructor; [okc|constructor; [okc|constructor; [okc|constructor]]].
        -- destruct (o_bhhh o); [|constructor]. apply Forall_fm. intros v. apply Forall_map'. intros w. okc.
Qed.
End Confined.
