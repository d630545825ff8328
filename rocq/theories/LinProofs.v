(** Proofs about linear functions and parameter arithmetic. *)
From Verif Require Import LinModel LinSpec.
Open Scope R_scope.

(** ** The parser *)
Lemma mono f : forall g m ts r, (f <= g)%nat -> parse f m ts = Some r -> parse g m ts = Some r.
Proof.
  induction f as [|f IH]; intros g m ts r Hg H; [discriminate|].
  destruct g as [|g]; [lia|]. assert (Hl : (f <= g)%nat) by lia.
  destruct m; simpl in *.
  - destruct ts as [|[] ts]; auto; eapply IH; eauto.
  - destruct (Nat.eqb k 5); [eapply IH; eauto|].
    destruct (parse f (Bin (S k)) ts) as [[e r']|] eqn:E; [|discriminate].
    rewrite (IH _ _ _ _ Hl E). eapply IH; eauto.
  - destruct ts as [|[] ts]; auto. destruct (Nat.eqb (level o) k); auto.
    destruct (parse f (Bin (S k)) ts) as [[e r']|] eqn:E; [|discriminate].
    rewrite (IH _ _ _ _ Hl E). eapply IH; eauto.
  - assert (G : forall F, match parse f Unary F with Some (e, r') => Some (YNeg e, r') | None => None end = Some r ->
               match parse g Unary F with Some (e, r') => Some (YNeg e, r') | None => None end = Some r).
    { intros F. destruct (parse f Unary F) as [[e r']|] eqn:E; [|discriminate]. rewrite (IH _ _ _ _ Hl E). auto. }
    destruct ts as [|[] ts]; try (eapply IH; eauto; fail).
    + destruct o; try (eapply IH; eauto; fail). auto.
    + destruct (parse f Unary ts) as [[e r']|] eqn:E; [|discriminate]. rewrite (IH _ _ _ _ Hl E). auto.
  - destruct (parse f Prim ts) as [[e r']|] eqn:E; [|discriminate]. rewrite (IH _ _ _ _ Hl E).
    destruct r' as [|[] r']; auto. destruct o; auto.
    destruct (parse f Unary r') as [[e' r'']|] eqn:E2; [|discriminate]. rewrite (IH _ _ _ _ Hl E2). auto.
  - destruct ts as [|[] ts]; auto.
    destruct (parse f Whole ts) as [[e r']|] eqn:E; [|discriminate]. rewrite (IH _ _ _ _ Hl E). auto.
Qed.
Lemma det f g m ts r r' : parse f m ts = Some r -> parse g m ts = Some r' -> r = r'.
Proof.
  intros H H'. apply (mono _ (Nat.max f g)) in H; [|lia]. apply (mono _ (Nat.max f g)) in H'; [|lia]. congruence.
Qed.
Ltac fin := match goal with H : Some _ = Some _ |- _ => injection H; intros; subst; reflexivity end.
Lemma ext f : forall m ts e r s, parse f m ts = Some (e, r) -> parse f m (ts ++ TR :: s) = Some (e, r ++ TR :: s).
Proof.
  induction f as [|f IH]; intros m ts e r s H; [discriminate|].
  destruct m; simpl in *.
  - destruct ts as [|[] ts]; simpl; try (apply (IH _ _ _ _ s) in H; exact H). fin.
  - destruct (Nat.eqb k 5); [apply IH; auto|].
    destruct (parse f (Bin (S k)) ts) as [[e' r']|] eqn:E; [|discriminate].
    rewrite (IH _ _ _ _ s E). apply IH; auto.
  - destruct ts as [|[] ts]; simpl; try fin. destruct (Nat.eqb (level o) k); [|fin].
    destruct (parse f (Bin (S k)) ts) as [[e' r']|] eqn:E; [|discriminate].
    rewrite (IH _ _ _ _ s E). apply IH; auto.
  - destruct ts as [|[] ts]; simpl; try (apply (IH _ _ _ _ s) in H; exact H).
    + destruct o; simpl; try (apply (IH _ _ _ _ s) in H; exact H).
      destruct (parse f Unary ts) as [[e' r']|] eqn:E; [|discriminate]. rewrite (IH _ _ _ _ s E). fin.
    + destruct (parse f Unary ts) as [[e' r']|] eqn:E; [|discriminate]. rewrite (IH _ _ _ _ s E). fin.
  - destruct (parse f Prim ts) as [[e' r']|] eqn:E; [|discriminate]. rewrite (IH _ _ _ _ s E).
    destruct r' as [|[] r']; simpl; try fin. destruct o; simpl; try fin.
    destruct (parse f Unary r') as [[e2 r2]|] eqn:E2; [|discriminate]. rewrite (IH _ _ _ _ s E2). fin.
  - destruct ts as [|[] ts]; simpl; try fin; try discriminate.
    destruct (parse f Whole ts) as [[e' r']|] eqn:E; [|discriminate]. rewrite (IH _ _ _ _ s E).
    destruct r' as [|[] r']; simpl; try discriminate. fin.
Qed.
Definition runs (m : mode) (ts : text) (e : py) (r : text) : Prop := exists f, parse f m ts = Some (e, r).
Lemma runs_det m ts e r e' r' : runs m ts e r -> runs m ts e' r' -> e = e' /\ r = r'.
Proof. intros [f H] [g H']. pose proof (det _ _ _ _ _ _ H H'). split; congruence. Qed.
Definition no_op (k : nat) (r : text) : Prop := match r with TO o :: _ => level o <> k | _ => True end.
Lemma runs_rest_stop k e r : no_op k r -> runs (Rest k e) r e r.
Proof.
  intros H. exists 1%nat. simpl. destruct r as [|[] r]; auto. simpl in H.
  destruct (Nat.eqb_spec (level o) k); [contradiction|auto].
Qed.
Lemma runs_bin5 ts e r : runs Unary ts e r -> runs (Bin 5) ts e r.
Proof. intros [f H]. exists (S f). simpl. auto. Qed.
Lemma runs_bin k ts e r e' r' : k <> 5%nat -> runs (Bin (S k)) ts e r -> runs (Rest k e) r e' r' -> runs (Bin k) ts e' r'.
Proof.
  intros Hk [f H] [g H']. exists (S (Nat.max f g)). simpl. destruct (Nat.eqb_spec k 5); [contradiction|].
  rewrite (mono f _ _ _ _ (Nat.le_max_l f g) H). apply (mono g); auto. lia.
Qed.
Lemma climb ts e r : forall d k, (k <= 5)%nat -> (d <= k)%nat -> runs (Bin k) ts e r ->
  (forall i, (d <= i < k)%nat -> no_op i r) -> runs (Bin d) ts e r.
Proof.
  intros d k. revert d. induction k as [|k IH]; intros d Hk Hd H Hn.
  - replace d with O by lia. auto.
  - destruct (Nat.eq_dec d (S k)); [subst; auto|].
    apply IH; try lia.
    + apply (runs_bin k ts e r); auto; [lia|]. apply runs_rest_stop. apply Hn. lia.
    + intros i Hi. apply Hn. lia.
Qed.
Lemma runs_rest_op k o e e1 ts r e' r' : level o = k -> runs (Bin (S k)) ts e1 r ->
  runs (Rest k (YBin o e e1)) r e' r' -> runs (Rest k e) (TO o :: ts) e' r'.
Proof.
  intros Hk [f H] [g H']. exists (S (Nat.max f g)). simpl. rewrite Hk, Nat.eqb_refl.
  rewrite (mono f _ _ _ _ (Nat.le_max_l f g) H). apply (mono g); auto. lia.
Qed.
Definition not_tx (ts : text) : Prop := match ts with TX _ :: _ => False | _ => True end.
Lemma runs_whole ts e r : not_tx ts -> runs (Bin 0) ts e r -> runs Whole ts e r.
Proof. intros Hn [f H]. exists (S f). simpl. destruct ts as [|[] ts]; auto. contradiction. Qed.
Lemma runs_unary ts e r : runs Unary ts e r -> (forall i, (i < 5)%nat -> no_op i r) -> not_tx ts -> runs Whole ts e r.
Proof.
  intros H Hn Hx. apply runs_whole; auto. apply (climb ts e r 0 5); try lia.
  - apply runs_bin5; auto.
  - intros; apply Hn; lia.
Qed.
(** Binary operator other than [**] between two operands of the unary level. *)
Lemma runs_binop o ts us e1 e2 : o <> Pow -> not_tx ts ->
  runs Unary ts e1 (TO o :: us) -> runs Unary us e2 [] -> runs Whole ts (YBin o e1 e2) [].
Proof.
  intros Ho Hx H1 H2. apply runs_whole; auto.
  assert (Hk : (level o <= 4)%nat) by (destruct o; simpl; try lia; congruence).
  apply (climb ts (YBin o e1 e2) [] 0 (level o)); try lia; [|intros; exact I].
  apply (runs_bin _ ts e1 (TO o :: us)); [lia| |].
  - apply (climb _ _ _ _ 5); try lia; [apply runs_bin5; auto|]. intros i Hi. simpl. lia.
  - apply (runs_rest_op _ o e1 e2 us []); auto.
    + apply (climb _ _ _ _ 5); try lia; [apply runs_bin5; auto|]. intros; exact I.
    + apply runs_rest_stop. exact I.
Qed.

(** Primaries: texts that read as a unit before anything. *)
Definition prim_text (a : text) (e : py) : Prop := forall r, runs Prim (a ++ r) e r.
Definition no_pow (r : text) : Prop := match r with TO Pow :: _ => False | _ => True end.
Lemma prim_head a e r : runs Prim (a ++ r) e r ->
  match a ++ r with TO _ :: _ | TI :: _ | TX _ :: _ => False | _ => True end.
Proof.
  intros [[|f] H]; [discriminate|]. simpl in H. destruct (a ++ r) as [|[] t]; auto; discriminate.
Qed.
Lemma prim_power a e r : runs Prim (a ++ r) e r -> no_pow r -> runs Power (a ++ r) e r.
Proof.
  intros [f H] Hr. exists (S f). simpl. rewrite H. destruct r as [|[] r]; auto. destruct o; auto. contradiction.
Qed.
Lemma power_unary ts e r : runs Power ts e r ->
  match ts with TO _ :: _ | TI :: _ => False | _ => True end -> runs Unary ts e r.
Proof.
  intros [f H] Hh. exists (S f). simpl. destruct ts as [|[] ts]; auto; contradiction.
Qed.
Lemma prim_unary a e r : prim_text a e -> no_pow r -> runs Unary (a ++ r) e r.
Proof.
  intros H Hr. pose proof (prim_head _ _ _ (H r)) as Hh. apply power_unary.
  - apply prim_power; auto.
  - destruct (a ++ r) as [|[] t]; auto.
Qed.
Lemma prim_not_tx a e r : prim_text a e -> not_tx (a ++ r).
Proof. intros H. pose proof (prim_head _ _ _ (H r)) as Hh. unfold not_tx. destruct (a ++ r) as [|[] t]; auto. Qed.
Lemma prim_paren t e : runs Whole t e [] -> prim_text (TL :: t ++ [TR]) e.
Proof.
  intros [f H] r. exists (S f). simpl. rewrite <- app_assoc. simpl. rewrite (ext _ _ _ _ _ r H). auto.
Qed.
Lemma prim_ta s : prim_text [TA s] (YA s).
Proof. intros r. exists 1%nat. auto. Qed.
Lemma prim_tn v : prim_text [TN v] (YN v).
Proof. intros r. exists 1%nat. auto. Qed.
Lemma prim_tzz : prim_text [TZZ] (YN 0).
Proof. intros r. exists 1%nat. auto. Qed.
Lemma prim_whole a e : prim_text a e -> runs Whole a e [].
Proof.
  intros H. rewrite <- (app_nil_r a). apply runs_unary.
  - apply prim_unary; simpl; auto.
  - intros; exact I.
  - eapply prim_not_tx; eauto.
Qed.
Lemma neg_unary a e r : runs Unary (a ++ r) e r -> runs Unary (TO Minus :: a ++ r) (YNeg e) r.
Proof. intros [f H]. exists (S f). simpl. rewrite H. auto. Qed.
Lemma neg_whole a e : prim_text a e -> runs Whole (TO Minus :: a) (YNeg e) [].
Proof.
  intros H. rewrite <- (app_nil_r a). apply runs_unary; [|intros; exact I|exact I].
  apply neg_unary. apply prim_unary; simpl; auto.
Qed.

(** ** Texts and their values *)
Lemma reqb_true a b : reqb a b = true <-> a = b.
Proof. unfold reqb. destruct (Req_EM_T a b); split; auto; discriminate. Qed.
Lemma tok_eqb_true a b : tok_eqb a b = true -> a = b.
Proof.
  destruct a, b; simpl; intros H; auto; try discriminate;
    try (apply String.eqb_eq in H; congruence); try (apply reqb_true in H; congruence).
  destruct o, o0; auto; discriminate.
Qed.
Lemma text_eqb_true a : forall b, text_eqb a b = true -> a = b.
Proof.
  induction a as [|x a IH]; destruct b; simpl; intros H; auto; try discriminate.
  apply andb_true_iff in H. destruct H as [H1 H2]. apply tok_eqb_true in H1. f_equal; auto.
Qed.

Section Values.
Variable bare : R -> bool.
Variable x p : string -> R.
Variable other : op -> R -> R -> R.
Variable inv : R -> R.
Notation means := (means x other inv).
Notation eval := (eval x other inv).
Notation arith := (arith other).
Notation comp_means := (comp_means x p other inv).
Notation fun_means := (fun_means x p other inv).
Notation val_means := (val_means x p other inv).
Notation pvalue := (pvalue p other).

Lemma means_runs t v : means t v <-> exists e, runs Whole t e [] /\ eval e = v.
Proof. split; [intros (f & e & H & E); exists e; split; [exists f|]; auto|intros (e & [f H] & E); exists f, e; auto]. Qed.
Lemma means_det t u v : means t u -> means t v -> u = v.
Proof.
  rewrite !means_runs. intros (e & H & E) (e' & H' & E'). destruct (runs_det _ _ _ _ _ _ H H'). congruence.
Qed.
Lemma means_prim a e : prim_text a e -> means a (eval e).
Proof. intros H. apply means_runs. exists e. split; auto. apply prim_whole; auto. Qed.
Lemma means_tn v : means [TN v] v.
Proof. apply (means_prim _ (YN v)), prim_tn. Qed.
Lemma means_neg_tn v : means [TO Minus; TN v] (- v).
Proof. apply means_runs. exists (YNeg (YN v)). split; auto. apply (neg_whole [TN v]), prim_tn. Qed.
Lemma means_num v : means (num_text v) v.
Proof.
  unfold num_text. destruct (Rlt_dec v 0); [|apply means_tn].
  replace v with (- - v) at 2 by ring. apply means_neg_tn.
Qed.
Lemma means_float t v : float_of t = Some v -> means t v.
Proof.
  destruct t as [|a [|b [|c t]]]; intros H; try discriminate H.
  - destruct a; try discriminate H; try (destruct o; discriminate H); simpl in H; injection H as H; subst v.
    + apply means_tn.
    + apply (means_prim _ (YN 0)), prim_tzz.
  - destruct a; try discriminate H. destruct o; try discriminate H. destruct b; try discriminate H.
    simpl in H; injection H as H; subst v. apply means_neg_tn.
  - destruct a; try discriminate H. destruct o; try discriminate H. destruct b; discriminate H.
Qed.
Definition neg_text (t : text) : Prop := match t with [TO Minus; TN _] => True | _ => False end.
Lemma neg_text_dec t : {neg_text t} + {~ neg_text t}.
Proof.
  destruct t as [|a [|b [|c t]]]; simpl; auto; destruct a; auto; destruct o; auto; destruct b; auto.
Qed.
(** [parenthize] gives a primary of the same value. *)
Lemma paren_prim sq t v : means t v -> (sq = true \/ ~ neg_text t) ->
  exists e, prim_text (parenthize bare sq t) e /\ eval e = v.
Proof.
  intros H Hs. pose proof H as H0. apply means_runs in H0. destruct H0 as (e & Hr & He).
  assert (Hdef : exists e, prim_text (TL :: t ++ [TR]) e /\ eval e = v).
  { exists e. split; auto. apply prim_paren; auto. }
  destruct t as [|a [|b [|c t]]]; try exact Hdef.
  - destruct a; try exact Hdef; try (destruct o; exact Hdef); simpl.
    + exists (YA s). split; [apply prim_ta|]. apply (means_det [TA s]); auto. apply means_prim, prim_ta.
    + destruct (bare x0); [|exact Hdef]. exists (YN x0). split; [apply prim_tn|].
      apply (means_det [TN x0]); auto. apply means_tn.
    + exists (YN 0). split; [apply prim_tzz|]. apply (means_det [TZZ]); auto. apply means_prim, prim_tzz.
  - destruct a; try exact Hdef. destruct o; try exact Hdef. destruct b; try exact Hdef. simpl.
    destruct Hs as [ -> |Hs]; [|exfalso; apply Hs; exact I]. rewrite andb_false_r. exact Hdef.
  - destruct a; try exact Hdef. destruct o; try exact Hdef. destruct b; exact Hdef.
Qed.
Lemma fmt2_means o a b u v : (o = Pow -> ~ neg_text a) -> means a u -> means b v ->
  means (fmt2 bare o a b) (arith o u v).
Proof.
  intros Hn Ha Hb. destruct (paren_prim true b v Hb) as (eb & Pb & Eb); auto.
  assert (Ub : runs Unary (parenthize bare true b) eb []).
  { rewrite <- (app_nil_r (parenthize bare true b)). apply prim_unary; simpl; auto. }
  unfold fmt2. apply means_runs.
  assert (Hgen : ~ neg_text a -> exists e, runs Whole (parenthize bare false a ++ TO o :: parenthize bare true b) e [] /\
            eval e = arith o u v).
  { intros Hna. destruct (paren_prim false a u Ha) as (ea & Pa & Ea); auto.
    exists (YBin o ea eb). split; [|simpl; congruence].
    assert (Ho : o = Pow \/ o <> Pow) by (destruct o; auto; right; discriminate). destruct Ho as [ -> |Ho].
    - apply runs_unary; [|intros; exact I|eapply prim_not_tx; eauto]. apply power_unary.
      + destruct (Pa (TO Pow :: parenthize bare true b)) as [f Hf]. destruct Ub as [g Hg].
        exists (S (Nat.max f g)). simpl. rewrite (mono f _ _ _ _ (Nat.le_max_l f g) Hf).
        rewrite (mono g _ _ _ _ (Nat.le_max_r f g) Hg). auto.
      + pose proof (prim_head _ _ _ (Pa (TO Pow :: parenthize bare true b))) as Hh.
        destruct (parenthize bare false a ++ _) as [|[] ?]; auto.
    - apply (runs_binop o _ (parenthize bare true b)); auto.
      + eapply prim_not_tx; eauto.
      + apply prim_unary; auto. destruct o; simpl; auto. }
  destruct (neg_text_dec a) as [Hna|Hna]; [|auto].
  destruct a as [|[] [|[] [|]]]; try contradiction; try (destruct o0; contradiction).
  destruct o0; try contradiction. clear Hgen. simpl. assert (Ho : o <> Pow) by (intros ->; apply Hn; auto; exact I).
  assert (Eu : u = - x0) by (apply (means_det [TO Minus; TN x0]); auto; apply means_neg_tn).
  destruct (bare x0); simpl.
  - exists (YBin o (YNeg (YN x0)) eb). split; [|simpl; congruence].
    apply (runs_binop o _ (parenthize bare true b)); auto.
    apply (neg_unary [TN x0]). apply (prim_unary [TN x0]); [apply prim_tn|]. destruct o; simpl; auto.
  - exists (YBin o (YNeg (YN x0)) eb). split; [|simpl; congruence].
    assert (Pp : prim_text [TL; TO Minus; TN x0; TR] (YNeg (YN x0))).
    { apply (prim_paren [TO Minus; TN x0]). apply (neg_whole [TN x0]), prim_tn. }
    apply (runs_binop o _ (parenthize bare true b)); auto.
    apply (prim_unary [TL; TO Minus; TN x0; TR]); auto. destruct o; simpl; auto.
Qed.
Lemma neg_means d v : means d v -> means (TO Minus :: parenthize bare true d) (- v).
Proof.
  intros H. destruct (paren_prim true d v H) as (e & P & E); auto.
  apply means_runs. exists (YNeg e). split; [apply neg_whole; auto|simpl; congruence].
Qed.
Lemma is0_means t v : is0 t = true -> means t v -> v = 0.
Proof. intros H Hm. apply text_eqb_true in H. subst. apply (means_det t0); auto. apply means_tn. Qed.
Lemma is1_means t v : is1 t = true -> means t v -> v = 1.
Proof. intros H Hm. apply text_eqb_true in H. subst. apply (means_det t1); auto. apply means_tn. Qed.
Lemma means_tx s : means [TX s] (x s).
Proof. exists 1%nat, (YA s). auto. Qed.

Hypothesis Hbool : booleans_ok x.
Lemma dat_mul_means a b u v : means a u -> means b v -> means (dat_mul bare a b) (u * v).
Proof.
  intros Ha Hb. unfold dat_mul. destruct (is1 a) eqn:E1.
  { rewrite (is1_means _ _ E1 Ha), Rmult_1_l. auto. }
  destruct (is1 b) eqn:E2.
  { rewrite (is1_means _ _ E2 Hb), Rmult_1_r. auto. }
  destruct (text_eqb a b && is_boolean a) eqn:E3.
  { apply andb_true_iff in E3. destruct E3 as [E3 E4]. apply text_eqb_true in E3. subst b.
    pose proof (means_det _ _ _ Ha Hb). subst v.
    destruct a as [|[] [|]]; simpl in E4; try discriminate.
    pose proof (means_det _ _ _ Ha (means_tx s)). subst u.
    destruct (proj1 Hbool s E4) as [E|E]; rewrite E in *; [rewrite Rmult_0_l|rewrite Rmult_1_l]; auto. }
  destruct (exclusive a b) eqn:E4.
  { unfold exclusive in E4. destruct (boolmatch a) as [[w i]|] eqn:Ba; [|discriminate].
    destruct (boolmatch b) as [[w' j]|] eqn:Bb; [|discriminate].
    apply andb_true_iff in E4. destruct E4 as [E4 E5]. apply String.eqb_eq in E4. subst w'.
    apply negb_true_iff, String.eqb_neq in E5.
    destruct a as [|[] [|]]; simpl in Ba; try discriminate. destruct b as [|[] [|]]; simpl in Bb; try discriminate.
    pose proof (means_det _ _ _ Ha (means_tx s)). pose proof (means_det _ _ _ Hb (means_tx s0)). subst.
    replace (x s * x s0) with 0; [apply means_tn|].
    destruct (proj2 Hbool s s0 w i j Ba Bb E5) as [E|E]; rewrite E; ring. }
  apply (fmt2_means Times); auto. discriminate.
Qed.

(** ** Objects *)
Hypothesis Hnull : p null_ = 1.
Lemma is_null_true s : is_null s = true -> p s = 1.
Proof. intros H. apply String.eqb_eq in H. subst. auto. Qed.
Lemma comp_det c u v : comp_means c u -> comp_means c v -> u = v.
Proof. intros (d & H & ->) (d' & H' & ->). rewrite (means_det _ _ _ H H'). auto. Qed.
Lemma unit_means s : comp_means (unit_comp s) (p s).
Proof. exists 1. split; [apply means_tn|simpl; ring]. Qed.
Lemma neg_comp_means c v : comp_means c v -> comp_means (neg_comp c) (- v).
Proof. intros (d & H & ->). exists d. split; auto. simpl. ring. Qed.
Lemma dead_means c v : dead c = true -> comp_means c v -> v = 0.
Proof.
  unfold dead. intros H (d & Hd & ->). apply orb_true_iff in H. destruct H as [H|H].
  - rewrite (is0_means _ _ H Hd). ring.
  - apply reqb_true in H. rewrite H. ring.
Qed.
Lemma fun_means_one c v : comp_means c v -> fun_means [c] v.
Proof. intros H. replace v with (v + 0) by ring. constructor; auto. constructor. Qed.
Lemma fun_means_app l m u v : fun_means l u -> fun_means m v -> fun_means (l ++ m) (u + v).
Proof.
  induction 1; simpl; intros Hm.
  - rewrite Rplus_0_l. auto.
  - rewrite Rplus_assoc. constructor; auto.
Qed.
Lemma fun_means_map g k l v : (forall c a, comp_means c a -> comp_means (g c) (k * a)) ->
  fun_means l v -> fun_means (map g l) (k * v).
Proof.
  intros Hg. induction 1; simpl.
  - rewrite Rmult_0_r. constructor.
  - rewrite Rmult_plus_distr_l. constructor; auto.
Qed.
Lemma fun_neg l v : fun_means l v -> fun_means (map neg_comp l) (- v).
Proof.
  intros H. replace (- v) with ((-1) * v) by ring. apply fun_means_map; auto.
  intros c a Hc. replace ((-1) * a) with (- a) by ring. apply neg_comp_means; auto.
Qed.
Lemma cc_add_means a b u v : comp_means a u -> comp_means b v -> val_means (cc_add a b) (u + v).
Proof.
  intros Ha Hb. unfold cc_add. destruct (dead b) eqn:Eb.
  { rewrite (dead_means _ _ Eb Hb), Rplus_0_r. auto. }
  destruct (dead a) eqn:Ea.
  { rewrite (dead_means _ _ Ea Ha), Rplus_0_l. auto. }
  simpl. constructor; auto. apply fun_means_one; auto.
Qed.
Lemma two_means a b u v : comp_means a u -> comp_means b v -> fun_means [a; b] (u + v).
Proof. intros. constructor; auto. apply fun_means_one; auto. Qed.
Lemma comp_dat_means c d u v : comp_means c u -> means d v -> comp_means (comp_dat bare c d) (u * v).
Proof.
  intros (e & He & ->) Hd. exists (e * v). split; [apply dat_mul_means; auto|simpl; ring].
Qed.
Lemma dat_comp_means c d u v : means d u -> comp_means c v ->
  comp_means (mkComp (c_param c) (dat_mul bare d (c_data c)) (c_scale c)) (u * v).
Proof.
  intros Hd (e & He & ->). exists (u * e). split; [apply dat_mul_means; auto|simpl; ring].
Qed.
Lemma comp_num_means c a u : comp_means c u -> comp_means (comp_num c a) (u * a).
Proof. intros (d & Hd & ->). exists d. split; auto. simpl. ring. Qed.
Lemma null_dat_means d v : means d v -> comp_means (mkComp null_ d 1) v.
Proof. intros H. exists v. split; auto. simpl. rewrite Hnull. ring. Qed.
Lemma reparam_means s c u : is_null (c_param c) = true -> comp_means c u -> comp_means (reparam s c) (p s * u).
Proof. intros Hn (d & Hd & ->). exists d. split; auto. simpl. rewrite (is_null_true _ Hn). ring. Qed.
Lemma map_reparam s l u : all_null l = true -> fun_means l u -> fun_means (map (reparam s) l) (p s * u).
Proof.
  intros Hl H. induction H; simpl in *.
  - rewrite Rmult_0_r. constructor.
  - apply andb_true_iff in Hl. destruct Hl. rewrite Rmult_plus_distr_l. constructor; auto. apply reparam_means; auto.
Qed.
Lemma comp_pmath_value c e v : comp_pmath c = Some e -> comp_means c v -> pvalue e = Some v.
Proof.
  unfold comp_pmath. destruct (float_of (c_data c)) as [f|] eqn:Ef; [|discriminate].
  intros H (d & Hd & ->). pose proof (means_det _ _ _ Hd (means_float _ _ Ef)). subst d.
  destruct (reqb (f * c_scale c) 1) eqn:E; injection H as <-; simpl; f_equal.
  - apply reqb_true in E. replace (c_scale c * p (c_param c) * f) with (f * c_scale c * p (c_param c)) by ring.
    rewrite E. ring.
  - ring.
Qed.
Lemma fun_pmath_value l e v : fun_pmath l = Some e -> fun_means l v -> pvalue e = Some v.
Proof.
  unfold fun_pmath. destruct (forallb _ l); [|discriminate]. intros H Hl. destruct Hl as [|c l a b Hc Hl].
  - injection H as <-. auto.
  - assert (G : forall l b, fun_means l b -> forall acc va,
      (forall e, acc = Some e -> pvalue e = Some va) ->
      forall e, fold_left (fun acc c => match acc, comp_pmath c with Some x, Some y => Some (POp Plus x y) | _, _ => None end) l acc = Some e ->
      pvalue e = Some (va + b)).
    { clear. induction 1; simpl; intros acc va Hacc e0 He.
      - rewrite Rplus_0_r. auto.
      - rewrite <- Rplus_assoc. revert e0 He. apply IHfun_means. intros e0 He.
        destruct acc as [ea|]; [|discriminate]. destruct (comp_pmath c) as [ec|] eqn:Ec; [|discriminate].
        injection He as <-. simpl. rewrite (Hacc ea) by auto.
        rewrite (comp_pmath_value _ _ _ Ec H). auto. }
    eapply G; [exact Hl| |exact H]. intros e0 He0. eapply comp_pmath_value; eauto.
Qed.
Lemma pmath_value a e v : pmath a = Some e -> val_means a v -> pvalue e = Some v.
Proof.
  destruct a; simpl; intros H Hv; try discriminate; try (injection H as <-).
  - subst. auto.
  - subst. auto.
  - eapply comp_pmath_value; eauto.
  - eapply fun_pmath_value; eauto.
  - auto.
Qed.
Lemma p_op_means o a b u v r : p_op o a b = Ret r -> val_means a u -> val_means b v -> val_means r (arith o u v).
Proof.
  unfold p_op. destruct (pmath a) eqn:Ea; [|discriminate]. destruct (pmath b) eqn:Eb; [|discriminate].
  intros [= <-] Ha Hb. simpl. rewrite (pmath_value _ _ _ Ea Ha), (pmath_value _ _ _ Eb Hb). auto.
Qed.
Lemma is_zero_means b v : is_zero b = true -> val_means b v -> v = 0.
Proof. destruct b; try discriminate. simpl. intros H ->. apply reqb_true; auto. Qed.

Definition txt (v : val) : text := match v with VDat d => d | VNum x => num_text x | _ => [] end.
Definition datum (v : val) : Prop := match v with VDat _ | VNum _ => True | _ => False end.
Lemma txt_means a u : datum a -> val_means a u -> means (txt a) u.
Proof. destruct a; simpl; try contradiction; auto. intros _ ->. apply means_num. Qed.
Lemma dd_add_means a b u v r : datum a -> datum b -> ~ text_eqb (txt a) [TZZ] = true ->
  dd_add bare a b = Ret r -> val_means a u -> val_means b v -> val_means r (u + v).
Proof.
  intros Da Db Hz H Ha Hb. unfold dd_add in H. fold (txt a) in H. fold (txt b) in H.
  pose proof (txt_means _ _ Da Ha) as Ma. pose proof (txt_means _ _ Db Hb) as Mb.
  destruct (is0 (txt a)) eqn:E0. { injection H as <-. rewrite (is0_means _ _ E0 Ma), Rplus_0_l. auto. }
  destruct (is0 (txt b)) eqn:E1. { injection H as <-. rewrite (is0_means _ _ E1 Mb), Rplus_0_r. auto. }
  destruct (text_eqb (txt a) [TZZ]) eqn:E2; [contradiction Hz; auto|].
  destruct (text_eqb (txt b) [TZZ]) eqn:E3.
  - injection H as <-. apply text_eqb_true in E3. rewrite E3 in Mb.
    pose proof (means_det _ _ _ Mb (means_prim _ _ prim_tzz)). simpl in H. subst v. simpl.
    (* a + 0 *)
    destruct (neg_text_dec (txt a)) as [Hn|Hn].
    + destruct (txt a) as [|[] [|[] [|]]] eqn:Et; try contradiction; try (destruct o; contradiction).
      destruct o; try contradiction. simpl. pose proof (means_det _ _ _ Ma (means_neg_tn x0)). subst u.
      apply means_runs. exists (YBin Plus (YNeg (YN x0)) (YN 0)). split; [|auto].
      destruct (bare x0); simpl.
      * apply (runs_binop Plus _ [TN 0]); [discriminate|exact I| |].
        -- apply (neg_unary [TN x0]). apply (prim_unary [TN x0]); [apply prim_tn|exact I].
        -- apply (prim_unary [TN 0] _ []); [apply prim_tn|exact I].
      * apply (runs_binop Plus _ [TN 0]); [discriminate|exact I| |].
        -- apply (prim_unary [TL; TO Minus; TN x0; TR]); [|exact I].
           apply (prim_paren [TO Minus; TN x0]). apply (neg_whole [TN x0]), prim_tn.
        -- apply (prim_unary [TN 0] _ []); [apply prim_tn|exact I].
    + destruct (paren_prim false (txt a) u Ma) as (ea & Pa & Ea); auto.
      apply means_runs. exists (YBin Plus ea (YN 0)). split; [|simpl; congruence].
      apply (runs_binop Plus _ [TN 0]); [discriminate|eapply prim_not_tx; eauto| |].
      * apply prim_unary; auto. exact I.
      * apply (prim_unary [TN 0] _ []); [apply prim_tn|exact I].
  - injection H as <-. simpl. apply (fmt2_means Plus); auto. discriminate.
Qed.

Ltac pop := match goal with H : p_op ?o ?a ?b = Ret ?r |- _ =>
  exact (p_op_means o a b _ _ _ H ltac:(eassumption) ltac:(eassumption)) end.
Lemma add_means a b u v r : ~ trap Plus a b -> add bare a b = Ret r -> val_means a u -> val_means b v -> val_means r (u + v).
Proof.
  intros Ht H Ha Hb.
  assert (Hpop : forall r, p_op Plus a b = Ret r -> val_means r (u + v)) by (intros; eapply (p_op_means Plus); eauto).
  destruct a; unfold add in H.
  - (* number *) destruct b.
    + simpl in *. injection H as <-. subst. simpl. auto.
    + destruct (reqb x0 0) eqn:E; [|auto]. apply reqb_true in E. simpl in Ha. subst. injection H as <-. rewrite Rplus_0_l. auto.
    + eapply dd_add_means; try exact H; auto; simpl; auto. unfold num_text. destruct (Rlt_dec x0 0); simpl; discriminate.
    + destruct (reqb x0 0) eqn:E; [|discriminate]. apply reqb_true in E. simpl in Ha. subst. injection H as <-. rewrite Rplus_0_l. auto.
    + destruct (reqb x0 0) eqn:E; [|auto]. apply reqb_true in E. simpl in Ha. subst. injection H as <-. rewrite Rplus_0_l. auto.
    + auto.
  - (* parameter *) destruct (is_zero b) eqn:Ez.
    { injection H as <-. rewrite (is_zero_means _ _ Ez Hb), Rplus_0_r. auto. }
    simpl in Ha. subst u. destruct b; try discriminate; auto.
    + injection H as <-. simpl in Hb. subst v. apply cc_add_means; apply unit_means.
    + injection H as <-. apply cc_add_means; auto. apply unit_means.
    + injection H as <-. simpl in *. constructor; auto. apply unit_means.
  - (* data *) destruct b; try discriminate.
    + eapply dd_add_means; try exact H; auto; simpl; auto. intros E. apply text_eqb_true in E. subst. apply Ht. exact I.
    + injection H as <-. simpl in *. subst v. apply cc_add_means; [|apply unit_means].
      replace u with (p null_ * u) by (rewrite Hnull; ring). apply comp_dat_means; auto. apply unit_means.
    + eapply dd_add_means; try exact H; auto; simpl; auto. intros E. apply text_eqb_true in E. subst. apply Ht. exact I.
    + injection H as <-. apply cc_add_means; auto. apply null_dat_means; auto.
  - (* component *) destruct (is_zero b) eqn:Ez.
    { injection H as <-. rewrite (is_zero_means _ _ Ez Hb), Rplus_0_r. auto. }
    simpl in Ha. destruct b; try discriminate; auto; injection H as <-.
    + simpl in Hb. subst v. apply cc_add_means; auto. apply unit_means.
    + apply cc_add_means; auto. apply null_dat_means; auto.
    + apply cc_add_means; auto.
    + simpl in *. constructor; auto.
  - (* function *) destruct (is_zero b) eqn:Ez.
    { injection H as <-. rewrite (is_zero_means _ _ Ez Hb), Rplus_0_r. auto. }
    simpl in Ha. destruct b; try discriminate; auto; injection H as <-; simpl in *.
    + subst v. apply fun_means_app; auto. apply fun_means_one, unit_means.
    + destruct (dead c) eqn:Ed.
      * rewrite (dead_means _ _ Ed Hb), Rplus_0_r. auto.
      * apply fun_means_app; auto. apply fun_means_one; auto.
    + apply fun_means_app; auto.
  - destruct b; auto.
Qed.
Lemma sub_means a b u v r : ~ trap Minus a b -> sub bare a b = Ret r -> val_means a u -> val_means b v -> val_means r (u - v).
Proof.
  intros Ht H Ha Hb.
  assert (Hpop : forall r, p_op Minus a b = Ret r -> val_means r (u - v)) by (intros; eapply (p_op_means Minus); eauto).
  destruct a; unfold sub in H.
  - destruct b; try discriminate; auto.
    + simpl in *. injection H as <-. subst. simpl. auto.
    + destruct (reqb x0 0) eqn:E; [|auto]. apply reqb_true in E. exfalso. apply Ht. exact E.
    + injection H as <-. simpl in *. subst. apply (fmt2_means Minus); auto; [discriminate|apply means_num].
  - destruct (is_zero b) eqn:Ez.
    { injection H as <-. rewrite (is_zero_means _ _ Ez Hb), Rminus_0_r. auto. }
    simpl in Ha. subst u. destruct b; try discriminate; auto; injection H as <-; simpl in *; unfold Rminus.
    + subst v. apply two_means; [apply unit_means|]. apply neg_comp_means, unit_means.
    + apply two_means; [apply unit_means|]. apply neg_comp_means; auto.
    + constructor; [apply unit_means|]. apply fun_neg; auto.
  - destruct b; try discriminate; injection H as <-; simpl in *.
    + subst v. apply (fmt2_means Minus); auto; [discriminate|apply means_num].
    + subst v. unfold Rminus. apply two_means; [|apply neg_comp_means, unit_means].
      replace u with (p null_ * u) by (rewrite Hnull; ring). apply comp_dat_means; auto. apply unit_means.
    + apply (fmt2_means Minus); auto. discriminate.
  - destruct (is_zero b) eqn:Ez.
    { injection H as <-. rewrite (is_zero_means _ _ Ez Hb), Rminus_0_r. auto. }
    simpl in Ha. destruct b; try discriminate; auto; injection H as <-; simpl in *; unfold Rminus.
    + subst v. apply two_means; auto. apply neg_comp_means, unit_means.
    + apply two_means; auto. apply neg_comp_means; auto.
    + constructor; auto. apply fun_neg; auto.
  - destruct (is_zero b) eqn:Ez.
    { injection H as <-. rewrite (is_zero_means _ _ Ez Hb), Rminus_0_r. auto. }
    simpl in Ha. destruct b; try discriminate; auto; injection H as <-; simpl in *; unfold Rminus.
    + subst v. apply fun_means_app; auto. apply fun_means_one, neg_comp_means, unit_means.
    + apply fun_means_app; auto. apply fun_means_one, neg_comp_means; auto.
    + apply fun_means_app; auto. apply fun_neg; auto.
  - destruct b; auto.
Qed.
Lemma num_dat_means a d v r : num_dat bare a d = Ret r -> means d v -> val_means r (a * v).
Proof.
  unfold num_dat. intros H Hd. destruct (reqb a 1) eqn:E.
  { apply reqb_true in E. injection H as <-. subst. rewrite Rmult_1_l. auto. }
  destruct (is1 d) eqn:E1.
  { injection H as <-. rewrite (is1_means _ _ E1 Hd). simpl. ring. }
  injection H as <-. simpl. replace (a * v) with (p null_ * a * v) by (rewrite Hnull; ring).
  apply comp_dat_means; auto. apply comp_num_means, unit_means.
Qed.
Lemma cc_mul_means a b u v r : cc_mul bare a b = Ret r -> comp_means a u -> comp_means b v -> val_means r (u * v).
Proof.
  unfold cc_mul. intros H Ha Hb. destruct (is_null (c_param a)) eqn:Ea.
  { injection H as <-. destruct Ha as (d & Hd & ->), Hb as (e & He & ->). simpl. exists (d * e).
    split; [apply dat_mul_means; auto|]. simpl. rewrite (is_null_true _ Ea). ring. }
  destruct (is_null (c_param b)) eqn:Eb.
  { injection H as <-. destruct Ha as (d & Hd & ->), Hb as (e & He & ->). simpl. exists (d * e).
    split; [apply dat_mul_means; auto|]. simpl. rewrite (is_null_true _ Eb). ring. }
  eapply (p_op_means Times); eauto.
Qed.
Lemma trap_plus_not a b : (match a with VDat [TZZ] => False | _ => True end) -> ~ trap Plus a b.
Proof. intros H. destruct a as [ | |d| | | ]; simpl; auto. destruct d as [|[] [|]]; auto. Qed.
(** Partial sums of products never are plain data, so [sum] never meets the "00" trap. *)
Definition not_data (v : val) : Prop := match v with VDat _ => False | _ => True end.
Lemma add_not_data a b r : not_data a -> not_data b -> add bare a b = Ret r -> not_data r.
Proof.
  intros Ha Hb H.
  assert (Hp : forall o a b r, p_op o a b = Ret r -> not_data r).
  { intros o a0 b0 r0. unfold p_op. destruct (pmath a0), (pmath b0); try discriminate. intros [= <-]. exact I. }
  assert (Hc : forall c d, not_data (cc_add c d)).
  { intros c d. unfold cc_add. destruct (dead d), (dead c); exact I. }
  destruct a, b; simpl in *; try contradiction; repeat match type of H with (if ?t then _ else _) = _ => destruct t end;
    try discriminate; try (injection H as <-); simpl; auto; try (eapply Hp; eauto; fail); apply Hc.
Qed.
Lemma cc_mul_not_data a b r : cc_mul bare a b = Ret r -> not_data r.
Proof.
  unfold cc_mul. destruct (is_null (c_param a)); [intros [= <-]; exact I|].
  destruct (is_null (c_param b)); [intros [= <-]; exact I|].
  unfold p_op. destruct (pmath (VComp a)), (pmath (VComp b)); try discriminate. intros [= <-]; exact I.
Qed.
Lemma sum_raise l : fold_left (sum_step bare) l Raise = Raise.
Proof. induction l as [|r l IH]; simpl; auto. Qed.
Inductive all_mean : list res -> R -> Prop :=
| am_nil : all_mean [] 0
| am_cons v l a b : val_means v a -> not_data v -> all_mean l b -> all_mean (Ret v :: l) (a + b)
| am_bad l b : all_mean (Raise :: l) b.
Lemma sum_means l s : all_mean l s -> forall a u r, val_means a u -> not_data a ->
  fold_left (sum_step bare) l (Ret a) = Ret r -> val_means r (u + s).
Proof.
  induction 1 as [|v l a b Hv Hn Hl IH|l b]; simpl; intros x0 u r Hx Hnx H.
  - injection H as <-. rewrite Rplus_0_r. auto.
  - destruct (add bare x0 v) as [w| |] eqn:E; try (rewrite sum_raise in H; discriminate).
    rewrite <- Rplus_assoc. apply (IH w); auto.
    + eapply add_means; eauto. apply trap_plus_not. destruct x0; try exact I; contradiction.
    + apply (add_not_data x0 v); auto.
  - rewrite sum_raise in H. discriminate.
Qed.
Lemma all_mean_app l m a b : all_mean l a -> all_mean m b -> all_mean (l ++ m) (a + b).
Proof.
  induction 1; simpl; intros Hm.
  - rewrite Rplus_0_l. auto.
  - rewrite Rplus_assoc. constructor; auto.
  - constructor.
Qed.
Lemma row_mean c a l b : comp_means c a -> fun_means l b -> all_mean (map (fun j => cc_mul bare c j) l) (a * b).
Proof.
  intros Hc. induction 1 as [|d l u v Hd Hl IH]; simpl.
  - rewrite Rmult_0_r. constructor.
  - rewrite Rmult_plus_distr_l. destruct (cc_mul bare c d) as [w| |] eqn:E.
    + constructor; auto; [eapply cc_mul_means; eauto|eapply cc_mul_not_data; eauto].
    + exfalso. unfold cc_mul, p_op in E.
      destruct (is_null _); [discriminate|]. destruct (is_null _); [discriminate|].
      destruct (pmath (VComp c)), (pmath (VComp d)); discriminate.
    + constructor.
Qed.
Lemma grid_mean l a m b : fun_means l a -> fun_means m b ->
  all_mean (flat_map (fun i => map (fun j => cc_mul bare i j) m) l) (a * b).
Proof.
  intros Hl Hm. induction Hl as [|c l u v Hc Hl IH]; simpl.
  - rewrite Rmult_0_l. constructor.
  - rewrite Rmult_plus_distr_r. apply all_mean_app; auto. apply row_mean; auto.
Qed.
Lemma each_means l a c b r : fun_means l a -> comp_means c b ->
  each (map (fun i => as_comp (cc_mul bare i c)) l) = Ret r -> val_means r (a * b).
Proof.
  intros Hl Hc. unfold each.
  assert (G : forall l', fold_right (fun c acc => match c, acc with Some c, Some l => Some (c :: l) | _, _ => None end) (Some [])
      (map (fun i => as_comp (cc_mul bare i c)) l) = Some l' -> fun_means l' (a * b)).
  { induction Hl as [|d l u v Hd Hl IH]; simpl; intros l' H.
    - injection H as <-. rewrite Rmult_0_l. constructor.
    - rewrite Rmult_plus_distr_r. destruct (as_comp (cc_mul bare d c)) as [e|] eqn:E; [|discriminate].
      destruct (fold_right _ _ _) as [l2|] eqn:E2; [|discriminate]. injection H as <-. constructor; auto.
      unfold as_comp in E. destruct (cc_mul bare d c) as [[]| |] eqn:E3; try discriminate. injection E as <-.
      exact (cc_mul_means _ _ _ _ _ E3 Hd Hc). }
  destruct (fold_right _ _ _) as [l'|]; [|discriminate]. intros [= <-]. simpl. auto.
Qed.
Lemma mul_means a b u v r : ~ trap Times a b -> mul bare a b = Ret r -> val_means a u -> val_means b v -> val_means r (u * v).
Proof.
  intros Ht H Ha Hb.
  assert (Hpop : forall r, p_op Times a b = Ret r -> val_means r (u * v)) by (intros; eapply (p_op_means Times); eauto).
  destruct a; unfold mul in H.
  - (* number *) simpl in Ha. subst u. destruct b; auto.
    + injection H as <-. simpl in *. subst. auto.
    + injection H as <-. simpl in *. subst v. exists 1. split; [apply means_tn|simpl; ring].
    + eapply num_dat_means; eauto.
    + injection H as <-. simpl in *. rewrite Rmult_comm. apply comp_num_means; auto.
    + injection H as <-. simpl in *. apply fun_means_map; auto. intros c a Hc. rewrite Rmult_comm. apply comp_num_means; auto.
  - (* parameter *) simpl in Ha. subst u. destruct b; auto.
    + injection H as <-. simpl in *. subst v. exists 1. split; [apply means_tn|simpl; ring].
    + destruct (is_null s) eqn:E.
      { injection H as <-. rewrite (is_null_true _ E), Rmult_1_l. auto. }
      destruct (is_null s0) eqn:E2; [|auto]. injection H as <-. simpl in Hb. subst v.
      rewrite (is_null_true _ E2), Rmult_1_r. simpl. auto.
    + injection H as <-. simpl in *. exists v. split; auto. simpl. ring.
    + destruct (is_null s) eqn:E.
      { injection H as <-. rewrite (is_null_true _ E), Rmult_1_l. auto. }
      destruct (is_null (c_param c)) eqn:E2.
      { injection H as <-. simpl in *. apply reparam_means; auto. }
      exfalso. apply Ht. simpl. apply String.eqb_neq in E, E2. auto.
    + destruct (is_null s) eqn:E.
      { injection H as <-. rewrite (is_null_true _ E), Rmult_1_l. auto. }
      destruct (all_null l) eqn:E2; [|auto]. injection H as <-. simpl in *. apply map_reparam; auto.
  - (* data *) simpl in Ha. destruct b; try discriminate.
    + simpl in Hb. subst v. rewrite Rmult_comm. eapply num_dat_means; eauto.
    + injection H as <-. simpl in *. subst v. exists u. split; auto. simpl. ring.
    + injection H as <-. simpl in *. apply dat_mul_means; auto.
    + injection H as <-. simpl in *. apply dat_comp_means; auto.
    + injection H as <-. simpl in *. apply fun_means_map; auto. intros c a Hc. apply dat_comp_means; auto.
  - (* component *) simpl in Ha. destruct b; auto.
    + injection H as <-. simpl in *. subst. apply comp_num_means; auto.
    + destruct (is_null s) eqn:E.
      { injection H as <-. simpl in *. subst v. rewrite (is_null_true _ E), Rmult_1_r. auto. }
      destruct (is_null (c_param c)) eqn:E2; [|auto]. injection H as <-. simpl in *. subst v.
      rewrite Rmult_comm. apply reparam_means; auto.
    + injection H as <-. simpl in *. apply comp_dat_means; auto.
    + eapply cc_mul_means; eauto.
  - (* function *) simpl in Ha. destruct b; auto.
    + injection H as <-. simpl in *. subst. rewrite Rmult_comm. apply fun_means_map; auto.
      intros c a Hc. rewrite Rmult_comm. apply comp_num_means; auto.
    + destruct (is_null s) eqn:E.
      { injection H as <-. simpl in *. subst v. rewrite (is_null_true _ E), Rmult_1_r. auto. }
      destruct (all_null l) eqn:E2; [|auto]. injection H as <-. simpl in *. subst v.
      rewrite Rmult_comm. apply map_reparam; auto.
    + injection H as <-. simpl in *. rewrite Rmult_comm. apply fun_means_map; auto.
      intros c a Hc. rewrite Rmult_comm. apply comp_dat_means; auto.
    + eapply each_means; eauto.
    + replace (u * v) with (0 + u * v) by ring. eapply sum_means; [apply grid_mean; eauto| | |exact H]; simpl; auto.
  - destruct b; auto.
Qed.
Lemma div_means a b u v r : div bare a b = Ret r -> val_means a u -> val_means b v -> val_means r (u / v).
Proof.
  intros H Ha Hb.
  assert (Hpop : forall r, p_op Div a b = Ret r -> val_means r (u / v)) by (intros; eapply (p_op_means Div); eauto).
  destruct a; unfold div in H.
  - simpl in Ha. subst u. destruct b; try discriminate; auto.
    + destruct (reqb x1 0); [discriminate|]. injection H as <-. simpl in *. subst. auto.
    + injection H as <-. simpl in *. apply (fmt2_means Div); auto; [discriminate|apply means_num].
  - simpl in Ha. subst u. destruct b; try discriminate; auto.
    + destruct (reqb x0 0); [discriminate|]. injection H as <-. simpl in *. subst. exists 1.
      split; [apply means_tn|simpl; unfold Rdiv; ring].
    + injection H as <-. simpl in *. exists (1 / v). split; [|simpl; unfold Rdiv; ring].
      apply (fmt2_means Div); auto; [discriminate|apply means_num].
  - simpl in Ha. destruct b; try discriminate; injection H as <-; simpl in *.
    + subst. apply (fmt2_means Div); auto; [discriminate|apply means_num].
    + apply (fmt2_means Div); auto. discriminate.
  - simpl in Ha. destruct b; auto.
    + destruct (reqb x0 0); [discriminate|]. injection H as <-. simpl in *. subst.
      destruct Ha as (d & Hd & ->). exists d. split; auto. simpl. unfold Rdiv. ring.
    + injection H as <-. simpl in *. destruct Ha as (d' & Hd & ->). exists (d' / v).
      split; [apply (fmt2_means Div); auto; discriminate|simpl; unfold Rdiv; ring].
  - destruct b; try discriminate; auto.
  - destruct b; auto.
Qed.
Lemma data_op_means o a b u v r : o <> Plus -> o <> Minus -> o <> Times -> o <> Div -> ~ trap o a b ->
  data_op bare o a b = Ret r -> val_means a u -> val_means b v -> val_means r (arith o u v).
Proof.
  intros H1 H2 H3 H4 Ht H Ha Hb.
  assert (Hn : forall t, datum a -> txt a = t -> o = Pow -> ~ neg_text t).
  { intros t Hd <- -> Hneg. apply Ht. simpl. destruct a; simpl in *; try contradiction.
    unfold num_text in Hneg. destruct (Rlt_dec x0 0); [auto|contradiction]. }
  destruct a; try discriminate; destruct b; try discriminate; simpl in H; injection H as <-; simpl in *.
  all: subst; apply fmt2_means; auto using means_num.
Qed.
Lemma apply_means o a b u v r : ~ trap o a b -> apply bare o a b = Ret r -> val_means a u -> val_means b v ->
  val_means r (arith o u v).
Proof.
  intros Ht H Ha Hb. destruct o; simpl in H; unfold LinModel.arith.
  - eapply add_means; eauto.
  - eapply sub_means; eauto.
  - eapply mul_means; eauto.
  - eapply div_means; eauto.
  - eapply (data_op_means FDiv); eauto; discriminate.
  - eapply (data_op_means Pow); eauto; discriminate.
  - eapply (data_op_means BAnd); eauto; discriminate.
  - eapply (data_op_means BOr); eauto; discriminate.
  - eapply (data_op_means BXor); eauto; discriminate.
Qed.
Lemma neg_val_means a u r : neg bare a = Ret r -> val_means a u -> val_means r (- u).
Proof.
  intros H Ha. destruct a; try discriminate; simpl in H; injection H as <-; simpl in *.
  - subst. auto.
  - apply neg_means; auto.
  - apply neg_comp_means; auto.
  - apply fun_neg; auto.
Qed.
Lemma build_means e : forall v r, clean bare e -> build bare e = Some v ->
  expr_means x p other inv e r -> val_means v r.
Proof.
  induction e as [a|s|d|o a IHa b IHb|a IHa]; simpl; intros v r Hc Hb He.
  - injection Hb as <-. inversion He; subst. simpl. auto.
  - injection Hb as <-. inversion He; subst. simpl. auto.
  - injection Hb as <-. inversion He; subst. simpl. auto.
  - destruct Hc as (Ca & Cb & Ct). destruct (build bare a) as [va|]; [|discriminate].
    destruct (build bare b) as [vb|]; [|discriminate]. destruct (apply bare o va vb) as [w| |] eqn:E; try discriminate.
    injection Hb as <-. inversion He; subst. eapply apply_means; eauto.
  - destruct (build bare a) as [va|]; [|discriminate]. destruct (neg bare va) as [w| |] eqn:E; try discriminate.
    injection Hb as <-. inversion He; subst. eapply neg_val_means; eauto.
Qed.
End Values.
