(** Proofs: what the program of one case, and of one thread, does to memory. *)
From Coq Require Import Lra.
From Verif Require Export SchedProofs.
Open Scope R_scope.

(** * Numbers that may be missing *)
Lemma oplus_0_r a : oplus a (Some 0) = a.
Proof. destruct a; cbn; auto. f_equal. lra. Qed.
Lemma oplus_0_l a : oplus (Some 0) a = a.
Proof. destruct a; cbn; auto. f_equal. lra. Qed.
Lemma oplus_assoc a b c : oplus (oplus a b) c = oplus a (oplus b c).
Proof. destruct a, b, c; cbn; auto. f_equal. lra. Qed.
Lemma oplus_comm a b : oplus a b = oplus b a.
Proof. destruct a, b; cbn; auto. f_equal. lra. Qed.
Lemma oscale_oplus k a b : oscale k (oplus a b) = oplus (oscale k a) (oscale k b).
Proof. destruct a, b; cbn; auto. f_equal. lra. Qed.
Lemma total_app l1 l2 : total (l1 ++ l2) = oplus (total l1) (total l2).
Proof. induction l1 as [|x l1 IH]; cbn [app total fold_right]; [rewrite oplus_0_l; auto|]. fold (total (l1 ++ l2)). fold (total l1). rewrite IH, oplus_assoc. auto. Qed.
Lemma total_perm l1 l2 : Permutation l1 l2 -> total l1 = total l2.
Proof.
  induction 1 as [|x l l' _ IH|x y l|l l' l'' _ IH1 _ IH2]; auto; cbn [total fold_right].
  - fold (total l). fold (total l'). rewrite IH. auto.
  - fold (total l). rewrite <- !oplus_assoc. f_equal. apply oplus_comm.
  - congruence.
Qed.
Lemma total_Some {A} (f : A -> R) l : total (map (fun x => Some (f x)) l) = Some (Rsum f l).
Proof. induction l as [|x l IH]; cbn [map total fold_right Rsum]; auto. fold (total (map (fun x => Some (f x)) l)). rewrite IH. reflexivity. Qed.
Lemma osum_total l : osum l = total l.
Proof.
  unfold osum. rewrite <- (oplus_0_l (total l)). generalize (Some 0). induction l as [|x l IH]; intros s; cbn [fold_left total fold_right].
  - rewrite oplus_0_r. auto.
  - fold (total l). rewrite IH, oplus_assoc. auto.
Qed.
Lemma rsum_Rsum l : rsum l = Rsum (fun x => x) l.
Proof.
  unfold rsum. rewrite <- (Rplus_0_l (Rsum (fun x => x) l)). generalize 0. induction l as [|x l IH]; intros s; cbn [fold_left Rsum fold_right].
  - lra.
  - rewrite IH. unfold Rsum. lra.
Qed.
Lemma Rsum_ext {A} (f g : A -> R) l : (forall x, In x l -> f x = g x) -> Rsum f l = Rsum g l.
Proof. induction l as [|x l IH]; intros H; auto. cbn [Rsum fold_right]. f_equal; [apply H; left; auto|apply IH; intros; apply H; right; auto]. Qed.
Lemma Rsum_cons {A} (f : A -> R) x l : Rsum f (x :: l) = f x + Rsum f l.
Proof. reflexivity. Qed.
Lemma Rsum_plus {A} (f g : A -> R) l : Rsum (fun x => f x + g x) l = Rsum f l + Rsum g l.
Proof. induction l as [|x l IH]; [cbn; lra|]. rewrite !Rsum_cons, IH. lra. Qed.
Lemma Rsum_scale {A} (f : A -> R) k l : Rsum (fun x => k * f x) l = k * Rsum f l.
Proof. induction l as [|x l IH]; [cbn; lra|]. rewrite !Rsum_cons, IH. lra. Qed.
Lemma Rsum_zero {A} (f : A -> R) l : (forall x, In x l -> f x = 0) -> Rsum f l = 0.
Proof. induction l as [|x l IH]; intros H; auto. rewrite Rsum_cons, (H x) by (left; auto). rewrite IH; [lra|]. intros; apply H; right; auto. Qed.
Lemma Rsum_one l (f : nat -> R) v : NoDup l -> In v l -> Rsum (fun w => if (w =? v)%nat then f w else 0) l = f v.
Proof.
  induction l as [|x l IH]; intros N Hin; [destruct Hin|]. inversion N as [|? ? Nx Nl]; subst. rewrite Rsum_cons.
  destruct Hin as [ ->|Hin].
  - rewrite Nat.eqb_refl, Rsum_zero; [lra|]. intros w Hw. destruct (Nat.eqb_spec w v); auto. subst. contradiction.
  - rewrite IH by auto. destruct (Nat.eqb_spec x v); [subst; contradiction|lra].
Qed.

(** * Programs that only add *)
Section Adds.
(** [st] holds throughout; for the cells in [vis] the program adds [X]. *)
Variables (st : mem -> Prop) (vis : loc -> Prop).
Definition adds_to (p : list instr) (X : loc -> option R) : Prop :=
  forall m, st m -> st (run p m) /\ forall l, vis l -> run p m l = oplus (m l) (X l).
Lemma adds_nil : adds_to [] (fun _ => Some 0).
Proof. intros m H. split; [exact H|]. intros l _. cbn [run fold_left]. rewrite oplus_0_r. auto. Qed.
Lemma adds_app p q X Y : adds_to p X -> adds_to q Y -> adds_to (p ++ q) (fun l => oplus (X l) (Y l)).
Proof.
  intros Hp Hq m H. rewrite run_app. destruct (Hp m H) as [H1 E1]. destruct (Hq _ H1) as [H2 E2].
  split; auto. intros l Hl. rewrite E2, E1, oplus_assoc by auto. auto.
Qed.
Lemma adds_flat_map {A} (f : A -> list instr) (X : A -> loc -> option R) xs :
  (forall x, In x xs -> adds_to (f x) (X x)) -> adds_to (flat_map f xs) (fun l => total (map (fun x => X x l) xs)).
Proof.
  induction xs as [|x xs IH]; intros H; [exact adds_nil|].
  apply (adds_app (f x) (flat_map f xs) (X x) (fun l => total (map (fun x => X x l) xs))); [apply H; left; auto|apply IH; intros; apply H; right; auto].
Qed.
Lemma adds_ext p X Y : (forall l, vis l -> X l = Y l) -> adds_to p X -> adds_to p Y.
Proof. intros E H m Hm. destruct (H m Hm) as [H1 H2]. split; auto. intros l Hl. rewrite <- E by auto. auto. Qed.
Lemma adds_one i x : (forall m, st m -> st (exec m i)) -> (forall m, st m -> snd i m = oplus (m (fst i)) x) ->
  adds_to [i] (fun l => if loc_eqb l (fst i) then x else Some 0).
Proof.
  intros Hs Hv m H. split; [cbn; auto|]. intros l _. cbn [run fold_left]. unfold exec. destruct (loc_eqb l (fst i)) eqn:E.
  - apply loc_eqb_eq in E. subst l. apply Hv; auto.
  - rewrite oplus_0_r. auto.
Qed.
End Adds.
Lemma adds_map st vis {A} (f : A -> instr) (X : A -> loc -> option R) xs :
  (forall x, In x xs -> adds_to st vis [f x] (X x)) -> adds_to st vis (map f xs) (fun l => total (map (fun x => X x l) xs)).
Proof.
  intros H. replace (map f xs) with (flat_map (fun x => [f x]) xs).
  - apply adds_flat_map. auto.
  - clear H. induction xs as [|x xs IH]; cbn [flat_map app map]; [|rewrite IH]; auto.
Qed.

(** * Frames *)
Definition arr_of (i : instr) : arr := fst (fst (fst i)).
Lemma run_arr p m a r ij : Forall (fun i => arr_of i <> a) p -> run p m (a, r, ij) = m (a, r, ij).
Proof.
  intros H. apply run_other. intros i Hi E. apply (proj1 (Forall_forall _ _) H i Hi). unfold arr_of. rewrite E. auto.
Qed.
Lemma Forall_map_in {A B} (P : B -> Prop) (f : A -> B) l : (forall x, In x l -> P (f x)) -> Forall P (map f l).
Proof. intros H. apply Forall_forall. intros y Hy. apply in_map_iff in Hy. destruct Hy as [x [ <- Hx]]. auto. Qed.
Ltac frame :=
  repeat first
    [ apply Forall_nil
    | apply Forall_app; split
    | apply Forall_cons; [unfold arr_of; cbn [fst snd cell local]; discriminate|]
    | apply Forall_map'; intros ?; unfold arr_of; cbn [fst snd cell local]; discriminate
    | apply Forall_fm; intros ?
    | match goal with |- Forall _ (if ?b then _ else _) => destruct b end ].

Section Case.
Variables (d : data) (o : opts) (t : nat) (c : Z).
Notation n := (d_alts d). Notation np := (d_params d).
Notation cl := (cell o t c). Notation lo := (local t).

(** What the case reads once the utilities, and the probabilities, are there. *)
Definition has_u (m : mem) : Prop := forall i, (i < n)%nat -> m (cl AU i 0) = d_u d c i.
Definition has_du (m : mem) : Prop := forall i v, (i < n)%nat -> (v < np)%nat -> m (cl ADU i v) = Some (d_du d c i v).
Definition has_p (m : mem) : Prop := forall i, (i < n)%nat -> m (cl AP i 0) = Some (prob d c i).
Definition has_e (m : mem) : Prop := forall i, (i < n)%nat -> m (cl AE i 0) = Some (oexp (d_u d c i)).

Lemma cl_inj a i j b k l : cl a i j = cl b k l -> a = b /\ i = k /\ j = l.
Proof. unfold cell. intros H. injection H. intros. subst. auto. Qed.

Lemma run_const2 (L : nat -> nat -> loc) (f : nat -> nat -> option R) xs ys m i v :
  (forall i v k w, L i v = L k w -> i = k /\ v = w) -> In i xs -> In v ys ->
  run (flat_map (fun i => map (fun v => (L i v, fun _ => f i v)) ys) xs) m (L i v) = f i v.
Proof.
  intros Inj Hi Hv.
  assert (E : flat_map (fun i => map (fun v => (L i v, fun _ : mem => f i v)) ys) xs =
              map (fun x => (L (fst x) (snd x), fun _ : mem => f (fst x) (snd x))) (list_prod xs ys)).
  { clear. induction xs as [|x xs IH]; auto. cbn [flat_map list_prod]. rewrite map_app, map_map, IH. cbn [fst snd]. auto. }
  rewrite E. assert (Hin : In (i, v) (list_prod xs ys)) by (apply in_prod; auto).
  assert (R := run_const (fun x : nat * nat => L (fst x) (snd x)) (fun x => f (fst x) (snd x)) (list_prod xs ys) m (i, v) Hin).
  cbn [fst snd] in R. apply R.
  intros [k w] _ Ey. cbn [fst snd] in *. apply Inj in Ey. destruct Ey as [ -> ->]. auto.
Qed.

Lemma utility_effect m : has_u (run (utility_prog d o t c) m) /\ (want_dll o = true -> has_du (run (utility_prog d o t c) m)).
Proof.
  unfold utility_prog. rewrite !run_app. split.
  - intros i Hi. transitivity (run (map (fun i => (cl AU i 0, fun _ => d_u d c i)) (seq 0 n))
      (run (if want_dll o then flat_map (fun i => map (fun v => (cl ADU i v, fun _ => Some 0)) (seq 0 np)) (seq 0 n) else [])
        (run (map (fun i => (cl AU i 0, fun _ => Some 0)) (seq 0 n)) m)) (cl AU i 0)).
    + apply run_arr. frame.
    + rewrite (run_const (fun i => cl AU i 0) (fun i => d_u d c i)); auto.
      * apply in_seq. lia.
      * intros y _ E. apply cl_inj in E. destruct E as [_ [ -> _]]. auto.
  - intros W. rewrite W. intros i v Hi Hv.
    rewrite (run_const2 (fun i v => cl ADU i v) (fun i v => Some (d_du d c i v))); auto.
    + intros i' v' k w E. apply cl_inj in E. tauto.
    + apply in_seq; lia.
    + apply in_seq; lia.
Qed.

Lemma logit_sum_nonneg u l : 0 <= Rsum (fun j => oexp (u j)) (l : list nat).
Proof.
  induction l as [|x l IH]; [cbn; lra|]. rewrite Rsum_cons. assert (0 <= oexp (u x)); [|lra].
  unfold oexp. destruct (u x); [left; apply exp_pos|lra].
Qed.

(** The loop of mnl.pyx 107-114. *)
Definition exp_loop (xs : list nat) : list instr :=
  flat_map (fun i =>
    [(cl AE i 0, fun m => match m (cl AU i 0) with Some u => Some (exp u) | None => Some 0 end);
     (lo SSum 0 0, fun m => match m (cl AU i 0) with
                               | Some _ => Some (rd m (lo SSum 0 0) + rd m (cl AE i 0))
                               | None => m (lo SSum 0 0) end)]) xs.
Lemma exp_loop_effect xs : forall m s, has_u m -> (forall i, In i xs -> (i < n)%nat) -> m (lo SSum 0 0) = Some s ->
  run (exp_loop xs) m (lo SSum 0 0) = Some (s + Rsum (fun i => oexp (d_u d c i)) xs) /\
  (forall i, (In i xs -> run (exp_loop xs) m (cl AE i 0) = Some (oexp (d_u d c i))) /\
             (~ In i xs -> run (exp_loop xs) m (cl AE i 0) = m (cl AE i 0))).
Proof.
  induction xs as [|x xs IH]; intros m s Hu Hxs Hs.
  - cbn. split; [rewrite Rplus_0_r; auto|]. intros i. split; [intros []|auto].
  - assert (Hux : m (cl AU x 0) = d_u d c x) by (apply Hu; apply Hxs; left; auto).
    unfold exp_loop. cbn [flat_map app]. rewrite !run_cons. fold (exp_loop xs).
    set (i1 := (cl AE x 0, fun m => match m (cl AU x 0) with Some u => Some (exp u) | None => Some 0 end)).
    set (m1 := exec m i1).
    assert (E1 : m1 (cl AE x 0) = Some (oexp (d_u d c x))).
    { unfold m1, i1. rewrite exec_same'. rewrite Hux. destruct (d_u d c x); auto. }
    assert (E2 : forall k, m1 (cl AU k 0) = m (cl AU k 0)) by (intros; unfold m1; apply exec_other; discriminate).
    assert (E3 : m1 (lo SSum 0 0) = Some s) by (unfold m1; rewrite exec_other; [auto|discriminate]).
    set (i2 := (lo SSum 0 0, _)). set (m2 := exec m1 i2).
    assert (F1 : m2 (lo SSum 0 0) = Some (s + oexp (d_u d c x))).
    { unfold m2, i2. rewrite exec_same', E2, Hux. unfold rd. rewrite E3, E1. destruct (d_u d c x); [reflexivity|cbn; rewrite Rplus_0_r; auto]. }
    assert (F2 : forall a k j, a <> SSum -> m2 (cl a k j) = m1 (cl a k j)).
    { intros a k j N. unfold m2. apply exec_other. unfold i2, cell, local. cbn [fst]. intros E. injection E. congruence. }
    assert (Hu2 : has_u m2). { intros k Hk. rewrite F2 by discriminate. rewrite E2. auto. }
    destruct (IH m2 _ Hu2 (fun i Hi => Hxs i (or_intror Hi)) F1) as [G1 G2]. split.
    + rewrite G1, Rsum_cons. f_equal. lra.
    + intros i. destruct (in_dec Nat.eq_dec i xs) as [Hi|Hi].
      * split; [intros _; apply (proj1 (G2 i)); auto|]. intros N. exfalso. apply N. right. auto.
      * rewrite (proj2 (G2 i) Hi), F2 by discriminate. split.
        -- intros [ <-|Hin]; [auto|contradiction].
        -- intros N. unfold m1. apply exec_other. unfold i1. cbn [fst]. intros E. apply cl_inj in E. apply N. left. symmetry. tauto.
Qed.

Lemma probability_effect m : has_u m ->
  let m' := run (probability_prog d o t c) m in has_p m' /\ has_e m' /\ has_u m' /\ (has_du m -> has_du m').
Proof.
  intros Hu. unfold probability_prog. rewrite run_cons, run_app. fold (exp_loop (seq 0 n)).
  set (m0 := exec m (lo SSum 0 0, fun _ => Some 0)).
  assert (Hu0 : has_u m0) by (intros i Hi; unfold m0; rewrite exec_other by discriminate; auto).
  assert (H0 : m0 (lo SSum 0 0) = Some 0) by (unfold m0; apply exec_same').
  assert (Hr : forall i, In i (seq 0 n) -> (i < n)%nat) by (intros i Hi; apply in_seq in Hi; lia).
  destruct (exp_loop_effect (seq 0 n) m0 0 Hu0 Hr H0) as [G1 G2]. rewrite Rplus_0_l in G1.
  set (m1 := run (exp_loop (seq 0 n)) m0) in *.
  set (F := fun (i : nat) (m : mem) => if Req_EM_T (rd m (lo SSum 0 0)) 0 then Some 0 else Some (rd m (cl AE i 0) / rd m (lo SSum 0 0))).
  change (map _ (seq 0 n)) with (map (fun i => (cl AP i 0, F i)) (seq 0 n)).
  assert (L : forall xs m2, (forall i, In i xs -> (i < n)%nat) -> (forall l, fst (fst l) <> AP -> m2 l = m1 l) ->
     forall i, (In i xs -> run (map (fun i => (cl AP i 0, F i)) xs) m2 (cl AP i 0) = Some (prob d c i)) /\
               (~ In i xs -> run (map (fun i => (cl AP i 0, F i)) xs) m2 (cl AP i 0) = m2 (cl AP i 0))).
  { induction xs as [|x xs IH]; intros m2 Hx Hm2 i; [split; [intros []|auto]|].
    cbn [map]. rewrite run_cons.
    assert (E : exec m2 (cl AP x 0, F x) (cl AP x 0) = Some (prob d c x)).
    { rewrite exec_same'. unfold F, rd. rewrite !Hm2 by discriminate. rewrite G1.
      rewrite (proj1 (G2 x)) by (apply in_seq; specialize (Hx x (or_introl eq_refl)); lia).
      unfold prob, logit. cbv zeta. destruct (Req_EM_T _ 0); reflexivity. }
    destruct (IH (exec m2 (cl AP x 0, F x)) (fun i Hi => Hx i (or_intror Hi))
       ltac:(intros l Hl; rewrite exec_other; [auto|intros ->; apply Hl; reflexivity]) i) as [I1 I2].
    destruct (in_dec Nat.eq_dec i xs) as [Hi|Hi].
    - split; [intros _; auto|]. intros N. exfalso. apply N. right. auto.
    - rewrite (I2 Hi). split.
      + intros [ <-|Hin]; [auto|contradiction].
      + intros N. apply exec_other. cbn [fst]. intros E'. apply cl_inj in E'. apply N. left. symmetry. tauto. }
  assert (Fr : forall a k j, a <> AP -> run (map (fun i => (cl AP i 0, F i)) (seq 0 n)) m1 (cl a k j) = m1 (cl a k j)).
  { intros a k j N. apply run_arr. apply Forall_map'. intros i. unfold arr_of. cbn. congruence. }
  assert (Fr1 : forall a k j, a <> AE -> a <> SSum -> m1 (cl a k j) = m (cl a k j)).
  { intros a k j N1 N2. unfold m1. transitivity (m0 (cl a k j)); [apply run_arr|].
    2:{ unfold m0. apply exec_other. unfold local, cell. cbn [fst]. intros E. injection E. congruence. }
    unfold exp_loop. apply Forall_fm. intros i. unfold arr_of. repeat constructor; cbn; congruence. }
  cbv zeta. repeat split.
  - intros i Hi. apply (L (seq 0 n) m1 Hr (fun _ _ => eq_refl) i). apply in_seq. lia.
  - intros i Hi. rewrite Fr by discriminate. apply G2. apply in_seq. lia.
  - intros i Hi. rewrite Fr, Fr1 by discriminate. auto.
  - intros Hd i v Hi Hv. rewrite Fr, Fr1 by discriminate. auto.
Qed.

(** * Log likelihood *)
Lemma loglike_of_total p ch l : loglike_of p ch l =
  total (map (fun i => if Req_EM_T (ch i) 0 then Some 0 else oscale (ch i) (flog (p i))) l).
Proof.
  induction l as [|i l IH]; auto. cbn [loglike_of map total fold_right]. fold (total (map (fun i => if Req_EM_T (ch i) 0 then Some 0 else oscale (ch i) (flog (p i))) l)).
  rewrite <- IH. destruct (Req_EM_T (ch i) 0); auto. rewrite oplus_0_l. auto.
Qed.
Lemma loc_eqb_refl l : loc_eqb l l = true.
Proof. apply loc_eqb_eq. auto. Qed.
Lemma loglike_effect m : has_p m ->
  let m' := run (loglike_prog d o t c) m in
  m' (lo SLL 0 0) = oplus (m (lo SLL 0 0)) (case_ll d c) /\ m' (cl ALLc 0 0) = oplus (m (cl ALLc 0 0)) (case_ll d c) /\
  (forall l, fst (fst l) <> SLLt -> l <> lo SLL 0 0 -> l <> cl ALLc 0 0 -> m' l = m l).
Proof.
  intros Hp. unfold loglike_prog. rewrite run_cons, run_app.
  set (m0 := exec m _).
  set (F := fun i => (lo SLLt 0 0, fun m : mem =>
    if Req_EM_T (d_ch d c i) 0 then m (lo SLLt 0 0)
    else oplus (m (lo SLLt 0 0)) (oscale (d_ch d c i) (flog (rd m (cl AP i 0)))))).
  assert (A : adds_to has_p (fun _ => True) (map F (seq 0 n)) (fun l => total (map (fun i => if loc_eqb l (lo SLLt 0 0) then
     (if Req_EM_T (d_ch d c i) 0 then Some 0 else oscale (d_ch d c i) (flog (prob d c i))) else Some 0) (seq 0 n)))).
  { apply (adds_map _ _ F (fun i l => if loc_eqb l (lo SLLt 0 0) then
     (if Req_EM_T (d_ch d c i) 0 then Some 0 else oscale (d_ch d c i) (flog (prob d c i))) else Some 0)). intros i Hi. apply in_seq in Hi.
    apply (adds_one has_p (fun _ => True) (F i) (if Req_EM_T (d_ch d c i) 0 then Some 0 else oscale (d_ch d c i) (flog (prob d c i)))).
    - intros m2 H2 k Hk. rewrite exec_other by discriminate. auto.
    - intros m2 H2. unfold F. cbn [fst snd]. destruct (Req_EM_T (d_ch d c i) 0); [rewrite oplus_0_r; auto|].
      unfold rd. rewrite H2 by lia. auto. }
  destruct (A m0) as [_ E]; [intros i Hi; unfold m0; rewrite exec_other by discriminate; auto|].
  set (m1 := run (map F (seq 0 n)) m0) in *.
  assert (E1 : m1 (lo SLLt 0 0) = loglike_of (prob d c) (d_ch d c) (seq 0 n)).
  { rewrite E by auto. rewrite loc_eqb_refl. unfold m0. rewrite exec_same', oplus_0_l. symmetry. apply loglike_of_total. }
  assert (E2 : forall l, fst (fst l) <> SLLt -> m1 l = m l).
  { intros l Hl. unfold m1, m0. destruct l as [[a r] ij]. cbn [fst] in Hl. rewrite run_arr.
    - apply exec_other. unfold local. cbn [fst]. intros E0. injection E0. congruence.
    - apply Forall_map'. intros i. unfold arr_of, F. cbn. congruence. }
  rewrite !run_cons. cbn [run fold_left]. set (i1 := (_, _)). set (i2 := (_, _)). set (i3 := (_, _)).
  assert (X1 : exec m1 i1 (lo SLLt 0 0) = case_ll d c) by (unfold i1; rewrite exec_same', E1; auto).
  assert (X2 : exec (exec m1 i1) i2 (lo SLL 0 0) = oplus (m (lo SLL 0 0)) (case_ll d c)).
  { unfold i2. rewrite exec_same', X1. rewrite exec_other by discriminate. rewrite E2 by discriminate. auto. }
  cbv zeta. repeat split.
  - rewrite exec_other by discriminate. auto.
  - unfold i3. rewrite exec_same'. rewrite !(exec_other (exec m1 i1) i2) by discriminate. rewrite X1.
    rewrite exec_other by discriminate. rewrite E2 by discriminate. auto.
  - intros l N1 N2 N3. rewrite !exec_other; auto. cbn. intros ->. apply N1. reflexivity.
Qed.

(** * Gradients *)
Definition has_pd (m : mem) : Prop := has_p m /\ has_du m.
(** The derivative of alternative [i]'s contribution to log P(a). *)
Definition term (a v i : nat) : R := d_du d c i v * ((if (i =? a)%nat then 1 else 0) - prob d c i).
Definition wch (a : nat) : R := d_ch d c a * d_wt d c.
Lemma term_sum a v : (a < n)%nat -> Rsum (term a v) (seq 0 n) = score n (prob d c) (d_du d c) a v.
Proof.
  intros Ha. unfold score. rewrite <- (Rsum_one (seq 0 n) (fun i => d_du d c i v) a) by (try apply seq_NoDup; apply in_seq; lia).
  enough (H : Rsum (term a v) (seq 0 n) + Rsum (fun i => prob d c i * d_du d c i v) (seq 0 n) = Rsum (fun w => if (w =? a)%nat then d_du d c w v else 0) (seq 0 n)) by lra.
  rewrite <- Rsum_plus. apply Rsum_ext. intros i _. unfold term. destruct (i =? a)%nat; lra.
Qed.
Definition grad_arrays (a : arr) : bool := match a with ADLLtmp | ADLLc | ADLLtot => true | _ => false end.
Definition gX (a i v : nat) (l : loc) : option R :=
  oplus (if loc_eqb l (lo ADLLtmp v 0) then Some (term a v i) else Some 0)
  (oplus (if loc_eqb l (cl ADLLc v 0) then Some (term a v i * wch a) else Some 0)
         (if loc_eqb l (lo ADLLtot v 0) then Some (term a v i * wch a) else Some 0)).
Lemma grad_cell_adds a i v : (i < n)%nat -> (v < np)%nat -> adds_to has_pd (fun _ => True) (grad_cell d o t c a i v) (gX a i v).
Proof.
  intros Hi Hv. unfold grad_cell.
  set (tv := fun m : mem => (if (i =? a)%nat then 1 else 0) - rd m (cl AP i 0)).
  assert (T : forall m, has_pd m -> tv m = (if (i =? a)%nat then 1 else 0) - prob d c i).
  { intros m [Hp _]. unfold tv, rd. rewrite Hp by auto. auto. }
  assert (T2 : forall m, has_pd m -> rd m (cl ADU i v) * tv m = term a v i).
  { intros m H. rewrite T by auto. destruct H as [_ H]. unfold rd. rewrite H by auto. reflexivity. }
  assert (K : forall m (j : instr), grad_arrays (arr_of j) = true -> has_pd m -> has_pd (exec m j)).
  { intros m j Hj [Hp Hd]. split; [intros k Hk|intros k w Hk Hw]; (rewrite exec_other; [auto|]); intros E; unfold arr_of in Hj; rewrite <- E in Hj; discriminate. }
  assert (O : forall l x k, grad_arrays (fst (fst l)) = true -> (forall m, has_pd m -> x m = k * term a v i) ->
    adds_to has_pd (fun _ => True) [(l, fun m => if Req_EM_T (tv m) 0 then m l else oplus (m l) (Some (x m)))]
      (fun l' => if loc_eqb l' l then Some (k * term a v i) else Some 0)).
  { intros l x k Ha Hx. apply (adds_one has_pd (fun _ => True) (l, fun m => if Req_EM_T (tv m) 0 then m l else oplus (m l) (Some (x m)))).
    - intros m. apply K. exact Ha.
    - intros m Hm. cbn [fst snd]. rewrite Hx by auto. destruct (Req_EM_T (tv m) 0) as [Z|NZ]; auto.
      rewrite T in Z by auto. unfold term. rewrite Z, !Rmult_0_r, oplus_0_r. auto. }
  eapply adds_ext; [|apply (adds_app has_pd (fun _ => True) [_] [_; _]); [apply (O _ (fun m => rd m (cl ADU i v) * tv m) 1)
     |apply (adds_app has_pd (fun _ => True) [_] [_]); [apply (O _ (fun m => rd m (cl ADU i v) * tv m * (d_ch d c a * d_wt d c)) (wch a))|apply (O _ (fun m => rd m (cl ADU i v) * tv m * (d_ch d c a * d_wt d c)) (wch a))]]]; try reflexivity.
  - intros l _. unfold gX. rewrite !(Rmult_comm (term a v i)), Rmult_1_l. reflexivity.
  - intros m Hm. rewrite T2 by auto. lra.
  - intros m Hm. rewrite T2 by auto. unfold wch. lra.
  - intros m Hm. rewrite T2 by auto. unfold wch. lra.
Qed.
Lemma total_one_if (l : list nat) (b : nat -> bool) (f : nat -> R) (v : nat) : NoDup l -> In v l -> (forall w, b w = (w =? v)%nat) ->
  total (map (fun w => if b w then Some (f w) else Some 0) l) = Some (f v).
Proof.
  intros N Hin Hb. rewrite <- (Rsum_one l f v N Hin). rewrite <- total_Some. f_equal. apply map_ext. intros w. rewrite Hb. destruct (w =? v)%nat; auto.
Qed.
Lemma total_zero {A} (f : A -> option R) l : (forall x, In x l -> f x = Some 0) -> total (map f l) = Some 0.
Proof. induction l as [|x l IH]; intros H; auto. cbn [map total fold_right]. fold (total (map f l)). rewrite IH by (intros; apply H; right; auto). rewrite H by (left; auto). rewrite oplus_0_l. auto. Qed.
Lemma total_ext {A} (f g : A -> option R) l : (forall x, In x l -> f x = g x) -> total (map f l) = total (map g l).
Proof. intros H. f_equal. apply map_ext_in. auto. Qed.

Lemma eqb_cell a i j k l : loc_eqb (cl a i j) (cl a k l) = (Nat.eqb i k && Nat.eqb j l)%bool.
Proof. unfold loc_eqb, cell. cbn [fst snd]. destruct (arr_eq_dec a a); [|congruence]. rewrite Nat.eqb_refl. auto. Qed.
Lemma eqb_local a i j k l : loc_eqb (lo a i j) (lo a k l) = (Nat.eqb i k && Nat.eqb j l)%bool.
Proof. unfold loc_eqb, local. cbn [fst snd]. destruct (arr_eq_dec a a); [|congruence]. rewrite Nat.eqb_refl. auto. Qed.
Lemma eqb_diff l l' : fst (fst l) <> fst (fst l') -> loc_eqb l l' = false.
Proof. intros N. unfold loc_eqb. destruct (arr_eq_dec _ _); congruence. Qed.

Definition grad_loop (a : nat) : list instr := flat_map (fun i => flat_map (grad_cell d o t c a i) (seq 0 np)) (seq 0 n).
Lemma grad_loop_effect a m : (a < n)%nat -> has_pd m ->
  let m' := run (grad_loop a) m in has_pd m' /\
  (forall v, (v < np)%nat -> m' (lo ADLLtmp v 0) = oplus (m (lo ADLLtmp v 0)) (Some (score n (prob d c) (d_du d c) a v))) /\
  (forall v, (v < np)%nat -> m' (cl ADLLc v 0) = oplus (m (cl ADLLc v 0)) (Some (score n (prob d c) (d_du d c) a v * wch a))) /\
  (forall v, (v < np)%nat -> m' (lo ADLLtot v 0) = oplus (m (lo ADLLtot v 0)) (Some (score n (prob d c) (d_du d c) a v * wch a))) /\
  (forall l, grad_arrays (fst (fst l)) = false -> m' l = m l).
Proof.
  intros Ha Hm.
  assert (A : adds_to has_pd (fun _ => True) (grad_loop a) (fun l => total (map (fun i => total (map (fun v => gX a i v l) (seq 0 np))) (seq 0 n)))).
  { unfold grad_loop. apply adds_flat_map with (X := fun i l => total (map (fun v => gX a i v l) (seq 0 np))). intros i Hi. apply in_seq in Hi.
    apply adds_flat_map with (X := fun v l => gX a i v l). intros v Hv. apply in_seq in Hv. apply grad_cell_adds; lia. }
  destruct (A m Hm) as [H1 H2]. cbv zeta.
  assert (S1 : forall v (k : R), (v < np)%nat -> total (map (fun i => total (map (fun w => if (w =? v)%nat then Some (term a w i * k) else Some 0) (seq 0 np))) (seq 0 n))
      = Some (score n (prob d c) (d_du d c) a v * k)).
  { intros v k Hv. rewrite <- term_sum by auto. rewrite Rmult_comm, <- Rsum_scale, <- total_Some. apply total_ext. intros i _.
    rewrite (total_one_if (seq 0 np) (fun w => (w =? v)%nat) (fun w => term a w i * k) v); auto using seq_NoDup; [f_equal; lra|apply in_seq; lia]. }
  repeat split; try (apply H1).
  - intros v Hv. rewrite H2 by auto. f_equal. rewrite <- (Rmult_1_r (score _ _ _ _ _)), <- S1 by auto. apply total_ext. intros i _. apply total_ext. intros w _.
    unfold gX. rewrite eqb_local, (eqb_diff (lo ADLLtmp v 0)) by discriminate. rewrite (eqb_diff (lo ADLLtmp v 0)) by discriminate.
    rewrite !oplus_0_r, Nat.eqb_refl, andb_true_r, (Nat.eqb_sym v w), Rmult_1_r. auto.
  - intros v Hv. rewrite H2 by auto. f_equal. rewrite <- S1 by auto. apply total_ext. intros i _. apply total_ext. intros w _.
    unfold gX. rewrite eqb_cell, (eqb_diff (cl ADLLc v 0) (lo ADLLtmp w 0)) by discriminate. rewrite (eqb_diff (cl ADLLc v 0) (lo ADLLtot w 0)) by discriminate.
    rewrite oplus_0_l, oplus_0_r, Nat.eqb_refl, andb_true_r, (Nat.eqb_sym v w). auto.
  - intros v Hv. rewrite H2 by auto. f_equal. rewrite <- S1 by auto. apply total_ext. intros i _. apply total_ext. intros w _.
    unfold gX. rewrite eqb_local, (eqb_diff (lo ADLLtot v 0) (lo ADLLtmp w 0)) by discriminate. rewrite (eqb_diff (lo ADLLtot v 0) (cl ADLLc w 0)) by discriminate.
    rewrite !oplus_0_l, Nat.eqb_refl, andb_true_r, (Nat.eqb_sym v w). auto.
  - intros l Hl. rewrite H2 by auto. rewrite total_zero, oplus_0_r; auto. intros i _. apply total_zero. intros w _.
    unfold gX. rewrite !eqb_diff, !oplus_0_r; auto; intros E; rewrite E in Hl; discriminate.
Qed.

(** One chosen alternative. *)
Definition sc (a v : nat) : R := score n (prob d c) (d_du d c) a v.
Definition visible (l : loc) : Prop := fst (fst l) <> ADLLtmp.
Definition inrange (l : loc) : Prop :=
  visible l /\ forall v w, (l = lo ADLLtot v 0 \/ l = cl ADLLc v 0 -> (v < np)%nat) /\ (l = lo ABhhh v w -> (v < np)%nat /\ (w < np)%nat).
Lemma bhhh_adds a m : (forall v, (v < np)%nat -> m (lo ADLLtmp v 0) = Some (sc a v)) ->
  let m' := run (flat_map (fun v => map (fun w => (lo ABhhh v w, fun m =>
         oplus (m (lo ABhhh v w)) (Some (rd m (lo ADLLtmp v 0) * rd m (lo ADLLtmp w 0) * (d_ch d c a * d_wt d c)))))
         (seq 0 np)) (seq 0 np)) m in
  (forall v w, (v < np)%nat -> (w < np)%nat -> m' (lo ABhhh v w) = oplus (m (lo ABhhh v w)) (Some (sc a v * sc a w * wch a))) /\
  (forall l, fst (fst l) <> ABhhh -> m' l = m l).
Proof.
  intros Ht. set (st := fun m : mem => forall v, (v < np)%nat -> m (lo ADLLtmp v 0) = Some (sc a v)).
  set (P := flat_map _ (seq 0 np)).
  assert (A : adds_to st (fun _ => True) P (fun l => total (map (fun v => total (map (fun w => if loc_eqb l (lo ABhhh v w) then Some (sc a v * sc a w * wch a) else Some 0) (seq 0 np))) (seq 0 np)))).
  { unfold P. apply adds_flat_map with (X := fun v l => total (map (fun w => if loc_eqb l (lo ABhhh v w) then Some (sc a v * sc a w * wch a) else Some 0) (seq 0 np))).
    intros v Hv. apply in_seq in Hv. apply adds_map with (X := fun w l => if loc_eqb l (lo ABhhh v w) then Some (sc a v * sc a w * wch a) else Some 0).
    intros w Hw. apply in_seq in Hw.
    match goal with |- adds_to _ _ [?i] _ => apply (adds_one st (fun _ => True) i (Some (sc a v * sc a w * wch a))) end.
    - intros m2 H2 k Hk. rewrite exec_other by discriminate. auto.
    - intros m2 H2. cbn [fst snd]. unfold rd. rewrite !H2 by lia. auto. }
  destruct (A m Ht) as [_ H2]. cbv zeta. split.
  - intros v w Hv Hw. rewrite H2 by auto. f_equal.
    transitivity (total (map (fun k => if (k =? v)%nat then Some (sc a k * sc a w * wch a) else Some 0) (seq 0 np))).
    + apply total_ext. intros k _. destruct (Nat.eqb_spec k v) as [ ->|N].
      * rewrite (total_one_if (seq 0 np) (fun w' => loc_eqb (lo ABhhh v w) (lo ABhhh v w')) (fun w' => sc a v * sc a w' * wch a) w); auto using seq_NoDup; [apply in_seq; lia|].
        intros w'. rewrite eqb_local, Nat.eqb_refl. cbn [andb]. apply Nat.eqb_sym.
      * apply total_zero. intros w' _. rewrite eqb_local, (proj2 (Nat.eqb_neq v k)) by auto. auto.
    + apply (total_one_if (seq 0 np) (fun k => (k =? v)%nat) (fun k => sc a k * sc a w * wch a) v); auto using seq_NoDup. apply in_seq. lia.
  - intros l Hl. rewrite H2 by auto. rewrite total_zero, oplus_0_r; auto. intros k _. apply total_zero. intros w _. rewrite eqb_diff; auto.
Qed.

Record grad_spec (m m' : mem) (f : nat -> R) (g : nat -> nat -> R) : Prop := mkGS {
  gs_pd : has_pd m';
  gs_c : forall v, (v < np)%nat -> m' (cl ADLLc v 0) = oplus (m (cl ADLLc v 0)) (Some (f v));
  gs_t : forall v, (v < np)%nat -> m' (lo ADLLtot v 0) = oplus (m (lo ADLLtot v 0)) (Some (f v));
  gs_b : forall v w, (v < np)%nat -> (w < np)%nat -> m' (lo ABhhh v w) = oplus (m (lo ABhhh v w)) (Some (if o_bhhh o then g v w else 0));
  gs_o : forall l, grad_arrays (fst (fst l)) = false -> fst (fst l) <> ABhhh -> m' l = m l }.
Lemma grad_alt_effect a m : (a < n)%nat -> has_pd m ->
  grad_spec m (run (grad_alt d o t c a) m) (fun v => wch a * sc a v) (fun v w => wch a * (sc a v * sc a w)).
Proof.
  intros Ha Hm. unfold grad_alt. fold (wch a). destruct (Req_EM_T (wch a) 0) as [Z|NZ].
  - rewrite Z. constructor; auto; intros; cbn [run fold_left]; rewrite ?Rmult_0_l; destruct (o_bhhh o); rewrite ?oplus_0_r; auto.
  - rewrite !run_app. set (m1 := run (map (fun v => (lo ADLLtmp v 0, fun _ : mem => Some 0)) (seq 0 np)) m).
    assert (Z1 : forall v, (v < np)%nat -> m1 (lo ADLLtmp v 0) = Some 0).
    { intros v Hv. unfold m1. apply (run_const (fun v => lo ADLLtmp v 0) (fun _ => Some 0)); auto. apply in_seq. lia. }
    assert (O1 : forall l, fst (fst l) <> ADLLtmp -> m1 l = m l).
    { intros [[x r] ij] Hl. unfold m1. apply run_arr. apply Forall_map'. intros v. unfold arr_of. cbn in *. congruence. }
    assert (P1 : has_pd m1). { destruct Hm as [Hp Hd]. split; [intros i Hi|intros i v Hi Hv]; rewrite O1 by discriminate; auto. }
    destruct (grad_loop_effect a m1 Ha P1) as [P2 [T2 [C2 [D2 O2]]]]. fold (grad_loop a). set (m2 := run (grad_loop a) m1) in *.
    assert (T2' : forall v, (v < np)%nat -> m2 (lo ADLLtmp v 0) = Some (sc a v)).
    { intros v Hv. rewrite T2, Z1, oplus_0_l by auto. auto. }
    destruct (bhhh_adds a m2 T2') as [B3 O3].
    destruct (o_bhhh o) eqn:Eb.
    + cbv zeta in O3, B3. change (d_ch d c a * d_wt d c) with (wch a) in B3, O3. match goal with |- grad_spec _ ?x _ _ => set (m3 := x) in * end. constructor.
      * destruct P2 as [Hp Hd]. split; [intros i Hi|intros i v Hi Hv]; rewrite O3 by discriminate; auto.
      * intros v Hv. rewrite O3 by discriminate. rewrite C2 by auto. rewrite O1 by discriminate. f_equal. f_equal. unfold sc. lra.
      * intros v Hv. rewrite O3 by discriminate. rewrite D2 by auto. rewrite O1 by discriminate. f_equal. f_equal. unfold sc. lra.
      * intros v w Hv Hw. rewrite B3 by auto. rewrite O2, O1 by (try discriminate; reflexivity). rewrite Eb. f_equal. f_equal. lra.
      * intros l N1 N2. rewrite O3 by auto. rewrite O2 by auto. apply O1. intros E. rewrite E in N1. discriminate.
    + cbn [run fold_left]. constructor.
      * exact P2.
      * intros v Hv. rewrite C2 by auto. rewrite O1 by discriminate. f_equal. f_equal. unfold sc. lra.
      * intros v Hv. rewrite D2 by auto. rewrite O1 by discriminate. f_equal. f_equal. unfold sc. lra.
      * intros v w Hv Hw. rewrite O2, O1 by (try discriminate; reflexivity). rewrite Eb, oplus_0_r. auto.
      * intros l N1 N2. rewrite O2 by auto. apply O1. intros E. rewrite E in N1. discriminate.
Qed.
Lemma grad_alts_effect l : forall m, (forall a, In a l -> (a < n)%nat) -> has_pd m ->
  grad_spec m (run (flat_map (grad_alt d o t c) l) m) (fun v => Rsum (fun a => wch a * sc a v) l) (fun v w => Rsum (fun a => wch a * (sc a v * sc a w)) l).
Proof.
  induction l as [|a l IH]; intros m Hl Hm.
  - constructor; auto; intros; cbn [flat_map run fold_left]; unfold Rsum; cbn [fold_right]; destruct (o_bhhh o); rewrite ?oplus_0_r; auto.
  - cbn [flat_map]. rewrite run_app. destruct (grad_alt_effect a m (Hl a (or_introl eq_refl)) Hm) as [P1 C1 T1 B1 O1].
    destruct (IH _ (fun a Ha => Hl a (or_intror Ha)) P1) as [P2 C2 T2 B2 O2]. constructor; auto.
    + intros v Hv. rewrite C2, C1, oplus_assoc by auto. reflexivity.
    + intros v Hv. rewrite T2, T1, oplus_assoc by auto. reflexivity.
    + intros v w Hv Hw. rewrite B2, B1, oplus_assoc by auto. f_equal. destruct (o_bhhh o); [reflexivity|cbn; f_equal; lra].
    + intros l0 N1 N2. rewrite O2, O1; auto.
Qed.
End Case.
