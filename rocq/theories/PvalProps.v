(** C74: what a model says when asked for values. *)
From Verif Require Import PvalModel PvalSpec.
From Coq Require Import Lra.

(** ** Expressions *)
Lemma op_ok m e x : op_value [SModel m] e = Ok x <-> means (rows m) e x.
Proof.
  revert x; induction e; intro v; cbn [op_value ref_value]; unfold both, get_value.
  - split; [injection 1 as <-; constructor|inversion 1; reflexivity].
  - destruct (row_at (rows m) s) eqn:E; split; try discriminate; [injection 1 as <-; now constructor|inversion 1; congruence|inversion 1; congruence].
  - rewrite IHe. split; [now constructor|now inversion 1].
  - destruct (op_value [SModel m] e) as [y|y] eqn:E; split; try discriminate.
    + injection 1 as <-. constructor. now apply IHe.
    + inversion 1; subst. match goal with H : means _ e ?z |- _ => apply IHe in H; injection H as <- end. reflexivity.
    + inversion 1; subst. match goal with H : means _ e ?z |- _ => apply IHe in H end. discriminate.
  - destruct (op_value [SModel m] e1) as [y|y] eqn:E1; [destruct (op_value [SModel m] e2) as [z|z] eqn:E2|]; split; try discriminate.
    + injection 1 as <-. constructor; [now apply IHe1|now apply IHe2].
    + inversion 1 as [| | | |? ? ? ? A B| | |]; subst. apply IHe1 in A. apply IHe2 in B. congruence.
    + inversion 1 as [| | | |? ? ? ? A B| | |]; subst. apply IHe2 in B. discriminate.
    + inversion 1 as [| | | |? ? ? ? A B| | |]; subst. apply IHe1 in A. discriminate.
  - destruct (op_value [SModel m] e1) as [y|y] eqn:E1; [destruct (op_value [SModel m] e2) as [z|z] eqn:E2|]; split; try discriminate.
    + injection 1 as <-. constructor; [now apply IHe1|now apply IHe2].
    + inversion 1 as [| | | | |? ? ? ? A B| |]; subst. apply IHe1 in A. apply IHe2 in B. congruence.
    + inversion 1 as [| | | | |? ? ? ? A B| |]; subst. apply IHe2 in B. discriminate.
    + inversion 1 as [| | | | |? ? ? ? A B| |]; subst. apply IHe1 in A. discriminate.
  - destruct (op_value [SModel m] e1) as [y|y] eqn:E1; [destruct (op_value [SModel m] e2) as [z|z] eqn:E2|]; split; try discriminate.
    + injection 1 as <-. constructor; [now apply IHe1|now apply IHe2].
    + inversion 1 as [| | | | | |? ? ? ? A B|]; subst. apply IHe1 in A. apply IHe2 in B. congruence.
    + inversion 1 as [| | | | | |? ? ? ? A B|]; subst. apply IHe2 in B. discriminate.
    + inversion 1 as [| | | | | |? ? ? ? A B|]; subst. apply IHe1 in A. discriminate.
  - destruct (op_value [SModel m] e1) as [y|y] eqn:E1; [destruct (op_value [SModel m] e2) as [z|z] eqn:E2|]; split; try discriminate.
    + injection 1 as <-. constructor; [now apply IHe1|now apply IHe2].
    + inversion 1 as [| | | | | | |? ? ? ? A B]; subst. apply IHe1 in A. apply IHe2 in B. congruence.
    + inversion 1 as [| | | | | | |? ? ? ? A B]; subst. apply IHe2 in B. discriminate.
    + inversion 1 as [| | | | | | |? ? ? ? A B]; subst. apply IHe1 in A. discriminate.
Qed.
Lemma op_raise m e x : op_value [SModel m] e = Raise x -> exists s, x = KeyError s /\ In s (names e) /\ row_at (rows m) s = None.
Proof.
  revert x; induction e; intro v; cbn [op_value ref_value names]; unfold both, get_value; try discriminate.
  - destruct (row_at (rows m) s) eqn:E; [discriminate|]. injection 1 as <-. exists s. repeat split; auto. now left.
  - apply IHe.
  - destruct (op_value [SModel m] e) as [y|y] eqn:E; [discriminate|]. intro H. injection H as <-. now apply IHe.
  - destruct (op_value [SModel m] e1) as [y|y] eqn:E1; [destruct (op_value [SModel m] e2) as [z|z] eqn:E2|]; intro H; try discriminate; injection H as <-.
    + destruct (IHe2 _ eq_refl) as [s [A [B C]]]. exists s. repeat split; auto. apply in_or_app. now right.
    + destruct (IHe1 _ eq_refl) as [s [A [B C]]]. exists s. repeat split; auto. apply in_or_app. now left.
  - destruct (op_value [SModel m] e1) as [y|y] eqn:E1; [destruct (op_value [SModel m] e2) as [z|z] eqn:E2|]; intro H; try discriminate; injection H as <-.
    + destruct (IHe2 _ eq_refl) as [s [A [B C]]]. exists s. repeat split; auto. apply in_or_app. now right.
    + destruct (IHe1 _ eq_refl) as [s [A [B C]]]. exists s. repeat split; auto. apply in_or_app. now left.
  - destruct (op_value [SModel m] e1) as [y|y] eqn:E1; [destruct (op_value [SModel m] e2) as [z|z] eqn:E2|]; intro H; try discriminate; injection H as <-.
    + destruct (IHe2 _ eq_refl) as [s [A [B C]]]. exists s. repeat split; auto. apply in_or_app. now right.
    + destruct (IHe1 _ eq_refl) as [s [A [B C]]]. exists s. repeat split; auto. apply in_or_app. now left.
  - destruct (op_value [SModel m] e1) as [y|y] eqn:E1; [destruct (op_value [SModel m] e2) as [z|z] eqn:E2|]; intro H; try discriminate; injection H as <-.
    + destruct (IHe2 _ eq_refl) as [s [A [B C]]]. exists s. repeat split; auto. apply in_or_app. now right.
    + destruct (IHe1 _ eq_refl) as [s [A [B C]]]. exists s. repeat split; auto. apply in_or_app. now left.
Qed.
Lemma means_names fr e x : means fr e x -> forall s, In s (names e) -> row_at fr s <> None.
Proof. 
  induction 1; cbn [names]; intros q Q; try (apply in_app_or in Q as [Q|Q]); auto; try contradiction.
  all: cbn [In] in Q; destruct Q as [Q|Q]; [subst; congruence|contradiction].
Qed.

(** ** Induction over what is asked *)
Lemma item_ind' (P : item -> Prop) : (forall e, P (Expr e)) -> (forall s, P (Name s)) -> (forall x, P (Num x)) ->
  (forall l, Forall (fun kv => P (snd kv)) l -> P (Dict l)) -> (forall h l, Forall P l -> P (Seq h l)) -> forall i, P i.
Proof.
  intros A B C D E. fix IH 1. intros [e|s|x|l|h l]; [apply A|apply B|apply C| |].
  - apply D. induction l as [|[k v] l IHl]; constructor; [apply IH|exact IHl].
  - apply E. induction l as [|v l IHl]; constructor; [apply IH|exact IHl].
Qed.
(** helper: the loops of [pvalue] (parameter_frame.pyx 277-280), apart. *)
Fixpoint go_dict (dft : bool) (m : pmodel) (l : list (string * item)) (done : list (key * answer)) : pmodel * res answer :=
  match l with
  | [] => (m, Ok (Map (rev done)))
  | (k, v) :: r => match pvalue dft m v with (m, Ok a) => go_dict dft m r ((Own k, a) :: done) | (m, Raise e) => (m, fail dft e) end
  end.
(** helper: the same for lists (parameter_frame.pyx 281-284). *)
Fixpoint go_seq (dft : bool) (m : pmodel) (l : list item) (done : list (key * answer)) : pmodel * res answer :=
  match l with
  | [] => (m, Ok (Map (rev done)))
  | v :: r => match pvalue dft m v with
              | (m, Ok a) => if hashable v then go_seq dft m r ((Asked v, a) :: done) else (m, fail dft TypeError)
              | (m, Raise e) => (m, fail dft e) end
  end.
Lemma pvalue_dict dft m l : pvalue dft m (Dict l) = go_dict dft m l [].
Proof.
  cbn [pvalue]. generalize (@nil (key * answer)) as done. revert m. induction l as [|[k v] l IH]; intros m done; [reflexivity|]. cbn [go_dict].
  destruct (pvalue dft m v) as [m' [a|e]]; [apply IH|reflexivity].
Qed.
Lemma pvalue_seq dft m h l : pvalue dft m (Seq h l) = go_seq dft m l [].
Proof.
  cbn [pvalue]. generalize (@nil (key * answer)) as done. revert m. induction l as [|v l IH]; intros m done; [reflexivity|]. cbn [go_seq].
  destruct (pvalue dft m v) as [m' [a|e]]; [destruct (hashable v); [apply IH|reflexivity]|reflexivity].
Qed.
Lemma unmangle_settled m : waiting m = [] -> unmangle m = m.
Proof. destruct m as [r w]. cbn. intros ->. unfold unmangle. cbn. now rewrite app_nil_r. Qed.

(** helper: what every call does at a settled model (parameter_frame.pyx 259-302). *)
Definition good (dft : bool) (m : pmodel) (i : item) : Prop :=
  fst (pvalue dft m i) = m /\
  match snd (pvalue dft m i) with
  | Ok a => wanted dft (rows m) i a /\ keyable i
  | Raise (KeyError s) => dft = false /\ In s (asked i) /\ row_at (rows m) s = None
  | Raise TypeError => ~ keyable i
  | Raise AttributeError => False
  end.
Lemma all_good dft m : waiting m = [] -> forall i, good dft m i.
Proof.
  intro W. apply item_ind'; unfold good.
  - intro e. cbn [pvalue fst snd]. split; [reflexivity|]. destruct (op_value [SModel m] e) as [x|x] eqn:E.
    + split; [|exact I]. constructor. now apply op_ok.
    + apply op_raise in E as [s [-> [A B]]]. unfold fail. destruct dft; [split; [now apply w_expr_default with s|exact I]|auto].
  - intro s. cbn [pvalue fst snd]. rewrite (unmangle_settled m W). split; [reflexivity|]. destruct (row_at (rows m) s) as [x|] eqn:E.
    + split; [now constructor|exact I].
    + unfold fail. destruct dft; [split; [now apply w_name_default|exact I]|]. repeat split; auto. now left.
  - intro x. cbn. split; [reflexivity|]. split; [constructor|exact I].
  - intros l F. rewrite pvalue_dict.
    assert (G : forall done, fst (go_dict dft m l done) = m /\
      match snd (go_dict dft m l done) with
      | Ok a => (exists al, a = Map (rev done ++ al) /\ Forall2 (fun kv ka => fst ka = Own (fst kv) /\ wanted dft (rows m) (snd kv) (snd ka)) l al) /\ keyable (Dict l)
      | Raise (KeyError s) => dft = false /\ In s (asked (Dict l)) /\ row_at (rows m) s = None
      | Raise TypeError => ~ keyable (Dict l)
      | Raise AttributeError => False end).
    { induction F as [|[k v] l Hv F IH]; intro done; cbn [go_dict].
      - cbn. repeat split. exists []. rewrite app_nil_r. split; [reflexivity|constructor].
      - cbn [snd] in Hv. destruct Hv as [M Hv]. destruct (pvalue dft m v) as [m' [a|e]]; cbn [fst snd] in M, Hv; subst m'.
        + destruct (IH ((Own k, a) :: done)) as [M' H]. split; [exact M'|].
          destruct (snd (go_dict dft m l ((Own k, a) :: done))) as [b|[s| |]].
          * destruct H as [[al [E H]] K]. split; [|cbn; split; [apply Hv|exact K]]. exists ((Own k, a) :: al). split.
            -- rewrite E. cbn [rev]. now rewrite <- app_assoc.
            -- constructor; [split; [reflexivity|apply Hv]|exact H].
          * destruct H as [D [H N]]. repeat split; auto. cbn [asked flat_map snd]. apply in_or_app. right. exact H.
          * cbn. intros [_ K]. now apply H.
          * exact H.
        + cbn [fst snd]. split; [reflexivity|]. destruct e as [s| |]; cbn [fail].
          * destruct Hv as [-> [H N]]. repeat split; auto. cbn [asked flat_map snd]. apply in_or_app. now left.
          * cbn. intros [K _]. now apply Hv.
          * exact Hv. }
    specialize (G []). destruct G as [M G]. split; [exact M|]. destruct (snd (go_dict dft m l [])) as [a|[s| |]]; auto.
    destruct G as [[al [-> H]] K]. split; [|exact K]. cbn [rev app]. now constructor.
  - intros h l F. rewrite pvalue_seq.
    assert (G : forall done, fst (go_seq dft m l done) = m /\
      match snd (go_seq dft m l done) with
      | Ok a => (exists al, a = Map (rev done ++ al) /\ Forall2 (fun v ka => fst ka = Asked v /\ wanted dft (rows m) v (snd ka)) l al) /\ keyable (Seq h l)
      | Raise (KeyError s) => dft = false /\ In s (asked (Seq h l)) /\ row_at (rows m) s = None
      | Raise TypeError => ~ keyable (Seq h l)
      | Raise AttributeError => False end).
    { induction F as [|v l Hv F IH]; intro done; cbn [go_seq].
      - cbn. repeat split. exists []. rewrite app_nil_r. split; [reflexivity|constructor].
      - destruct Hv as [M Hv]. destruct (pvalue dft m v) as [m' [a|e]]; cbn [fst snd] in M, Hv; subst m'.
        + destruct (hashable v) eqn:Hh; [|cbn; split; [reflexivity|]; intros [[Q _] _]; congruence].
          destruct (IH ((Asked v, a) :: done)) as [M' H]. split; [exact M'|].
          destruct (snd (go_seq dft m l ((Asked v, a) :: done))) as [b|[s| |]].
          * destruct H as [[al [E H]] K]. split; [|cbn; split; [split; [exact Hh|apply Hv]|exact K]]. exists ((Asked v, a) :: al). split.
            -- rewrite E. cbn [rev]. now rewrite <- app_assoc.
            -- constructor; [split; [reflexivity|apply Hv]|exact H].
          * destruct H as [D [H N]]. repeat split; auto. cbn [asked flat_map]. apply in_or_app. right. exact H.
          * cbn. intros [_ K]. now apply H.
          * exact H.
        + cbn [fst snd]. split; [reflexivity|]. destruct e as [s| |]; cbn [fail].
          * destruct Hv as [-> [H N]]. repeat split; auto. cbn [asked flat_map]. apply in_or_app. now left.
          * cbn. intros [[_ K] _]. now apply Hv.
          * exact Hv. }
    specialize (G []). destruct G as [M G]. split; [exact M|]. destruct (snd (go_seq dft m l [])) as [a|[s| |]]; auto.
    destruct G as [[al [-> H]] K]. split; [|exact K]. cbn [rev app]. now constructor.
Qed.

(** ** At a model that waits for nothing *)
(** Everything asked is answered in the same shape, each part with its own value, or the default; nothing changes. *)
Theorem C74_answers : forall dft m i a, waiting m = [] -> snd (pvalue dft m i) = Ok a -> wanted dft (rows m) i a /\ fst (pvalue dft m i) = m.
Proof. intros dft m i a W H. destruct (all_good dft m W i) as [M G]. rewrite H in G. now split. Qed.
(** It raises only for a name that is not in the frame, without a default, or for keys that cannot be. *)
Theorem C74_raises : forall dft m i e, waiting m = [] -> snd (pvalue dft m i) = Raise e ->
  (exists s, e = KeyError s /\ dft = false /\ In s (asked i) /\ row_at (rows m) s = None) \/ (e = TypeError /\ ~ keyable i).
Proof.
  intros dft m i e W H. destruct (all_good dft m W i) as [_ G]. rewrite H in G. destruct e as [s| |]; [left|right; now split|destruct G].
  exists s. destruct G as [A [B C]]. auto.
Qed.
(** With a default, or all names in the frame, whatever can be answered is. *)
Theorem C74_always : forall dft m i, waiting m = [] -> keyable i -> (dft = true \/ forall s, In s (asked i) -> row_at (rows m) s <> None) ->
  exists a, snd (pvalue dft m i) = Ok a.
Proof.
  intros dft m i W K H. destruct (snd (pvalue dft m i)) as [a|e] eqn:E; [now exists a|]. exfalso.
  destruct (C74_raises dft m i e W E) as [[s [_ [D [A N]]]]|[_ Q]]; [|now apply Q].
  destruct H as [H|H]; [congruence|]. now apply (H s).
Qed.
(** What is wanted is one thing: at most one answer. *)
Theorem C74_one_answer : forall dft fr i a b, wanted dft fr i a -> wanted dft fr i b -> a = b.
Proof.
  intros dft fr. 
  assert (M1 : forall e x y, means fr e x -> means fr e y -> x = y).
  { intros e x y A B. apply (op_ok (mkPm fr [])) in A, B. rewrite A in B. now injection B. }
  refine (item_ind' (fun i => forall a b, wanted dft fr i a -> wanted dft fr i b -> a = b) _ _ _ _ _).
  - intros e a b A B. inversion A; inversion B; subst; try reflexivity.
    + f_equal. eauto.
    + exfalso. eapply means_names; eauto.
    + exfalso. eapply means_names; eauto.
  - intros s a b A B. inversion A; inversion B; subst; congruence.
  - intros x a b A B. inversion A; inversion B; subst; congruence.
  - intros l F a b A B. inversion A as [| | | | |l' al HA E1|]; subst. inversion B as [| | | | |l' bl HB E2|]; subst. f_equal. clear A B.
    revert al bl HA HB. induction F as [|kv l H F IH]; intros al bl HA HB; inversion HA as [|? ka ? ? [K1 W1] R1]; subst; inversion HB as [|? kb ? ? [K2 W2] R2]; subst; [reflexivity|].
    f_equal; [|eauto]. destruct ka, kb. cbn in *. f_equal; [congruence|eauto].
  - intros h l F a b A B. inversion A as [| | | | | |h' l' al HA E1]; subst. inversion B as [| | | | | |h' l' bl HB E2]; subst. f_equal. clear A B.
    revert al bl HA HB. induction F as [|kv l H F IH]; intros al bl HA HB; inversion HA as [|? ka ? ? [K1 W1] R1]; subst; inversion HB as [|? kb ? ? [K2 W2] R2]; subst; [reflexivity|].
    f_equal; [|eauto]. destruct ka, kb. cbn in *. f_equal; [congruence|eauto].
Qed.

(** ** At any model *)
Lemma settled_unmangle m : waiting (unmangle m) = [].
Proof. reflexivity. Qed.
Lemma unmangle_twice m : unmangle (unmangle m) = unmangle m.
Proof. now apply unmangle_settled. Qed.
Lemma row_at_app {A} (a b : list (string * A)) s v : row_at a s = Some v -> row_at (a ++ b) s = Some v.
Proof.
  unfold row_at. induction a as [|x a IH]; [discriminate|]. cbn [find app]. destruct (String.eqb (fst x) s); auto.
Qed.
Lemma op_value_closed e m m' : names e = [] -> op_value [SModel m] e = op_value [SModel m'] e.
Proof.
  induction e; cbn [names op_value]; intro N; try reflexivity; try discriminate; auto.
  - now rewrite IHe.
  - apply app_eq_nil in N as [A B]. now rewrite IHe1, IHe2.
  - apply app_eq_nil in N as [A B]. now rewrite IHe1, IHe2.
  - apply app_eq_nil in N as [A B]. now rewrite IHe1, IHe2.
  - apply app_eq_nil in N as [A B]. now rewrite IHe1, IHe2.
Qed.
(** Asked by plain names, a model answers as if it had been scanned first. *)
Theorem C74_plain : forall dft m i, plain i -> snd (pvalue dft m i) = snd (pvalue dft (unmangle m) i).
Proof.
  intros dft m i P.
  assert (G : forall i, plain i -> forall m, unmangle (fst (pvalue dft m i)) = unmangle m /\ snd (pvalue dft m i) = snd (pvalue dft (unmangle m) i)).
  { clear. apply (item_ind' (fun i => plain i -> forall m, unmangle (fst (pvalue dft m i)) = unmangle m /\ snd (pvalue dft m i) = snd (pvalue dft (unmangle m) i))).
    - intros e P m. cbn [pvalue fst snd]. split; [reflexivity|]. cbn in P. now rewrite (op_value_closed e m (unmangle m) P).
    - intros s _ m. cbn [pvalue fst snd]. rewrite unmangle_twice. now split.
    - intros x _ m. now split.
    - intros l F P m. rewrite !pvalue_dict.
      assert (Q : forall done m m', unmangle m = unmangle m' -> unmangle (fst (go_dict dft m l done)) = unmangle m /\ snd (go_dict dft m l done) = snd (go_dict dft m' l done)).
      { clear m. revert P. induction F as [|[k v] l Hv F IH]; intros P done m m' E; cbn [go_dict]; [now split|]. destruct P as [P1 P2]. cbn [snd] in *.
        specialize (Hv P1). destruct (Hv m) as [A1 A2], (Hv m') as [B1 B2]. 
        assert (S1 : snd (pvalue dft m v) = snd (pvalue dft m' v)) by (rewrite A2, B2, E; reflexivity).
        destruct (pvalue dft m v) as [n [a|e]], (pvalue dft m' v) as [n' [a'|e']]; cbn [fst snd] in *; try discriminate.
        - injection S1 as <-. destruct (IH P2 ((Own k, a) :: done) n n') as [X Y]; [congruence|]. split; [congruence|exact Y].
        - split; congruence. }
      apply Q. symmetry. apply unmangle_twice.
    - intros h l F P m. rewrite !pvalue_seq.
      assert (Q : forall done m m', unmangle m = unmangle m' -> unmangle (fst (go_seq dft m l done)) = unmangle m /\ snd (go_seq dft m l done) = snd (go_seq dft m' l done)).
      { clear m. revert P. induction F as [|v l Hv F IH]; intros P done m m' E; cbn [go_seq]; [now split|]. destruct P as [P1 P2].
        specialize (Hv P1). destruct (Hv m) as [A1 A2], (Hv m') as [B1 B2]. 
        assert (S1 : snd (pvalue dft m v) = snd (pvalue dft m' v)) by (rewrite A2, B2, E; reflexivity).
        destruct (pvalue dft m v) as [n [a|e]], (pvalue dft m' v) as [n' [a'|e']]; cbn [fst snd] in *; try discriminate.
        - injection S1 as <-. destruct (hashable v); [|cbn; split; [congruence|reflexivity]].
          destruct (IH P2 ((Asked v, a) :: done) n n') as [X Y]; [congruence|]. split; [congruence|exact Y].
        - split; congruence. }
      apply Q. symmetry. apply unmangle_twice. }
  now apply G.
Qed.
(** A plain name scans the model: from then on everything is answered. *)
Theorem C74_name_settles : forall dft m s, fst (pvalue dft m (Name s)) = unmangle m /\ waiting (fst (pvalue dft m (Name s))) = [].
Proof. now split. Qed.
(** Wrong: a reference is looked up in the frame before the model is scanned.  A parameter just put into a utility is not found by [P.b], is found by ["b"],
    and after that is found by [P.b]: the answer depends on what was asked before, and on the order of a list. *)
Theorem C74_reference_refuted : exists m x,
  pvalue false m (Expr (ERef "b")) = (m, Raise (KeyError "b")) /\ snd (pvalue false m (Name "b")) = Ok (Value x) /\
  (let m' := fst (pvalue false m (Name "b")) in pvalue false m' (Expr (ERef "b")) = (m', Ok (Value x))) /\
  snd (pvalue false m (Seq true [Name "b"; Expr (ERef "b")])) = Ok (Map [(Asked (Name "b"), Value x); (Asked (Expr (ERef "b")), Value x)]) /\
  snd (pvalue false m (Seq true [Expr (ERef "b"); Name "b"])) = Raise (KeyError "b") /\
  snd (pvalue true m (Expr (EAdd (ERef "b") (ENum 1)))) = Ok Default.
Proof. exists (mkPm [("a", 5%R)] [("b", 0%R)]), 0%R. repeat split; reflexivity. Qed.
(** Wrong: a list in a list has no answer, though its parts have. *)
Theorem C74_nested_list_refuted : exists m i, waiting m = [] /\ snd (pvalue false m i) = Ok (Map [(Asked (Name "a"), Value 5)]) /\
  snd (pvalue true m (Seq false [i])) = Raise TypeError /\ wanted true (rows m) (Seq false [i]) (Map [(Asked i, Map [(Asked (Name "a"), Value 5)])]).
Proof.
  exists (mkPm [("a", 5%R)] []), (Seq false [Name "a"]). repeat split; try reflexivity.
  constructor. constructor; [|constructor]. split; [reflexivity|]. constructor. constructor; [|constructor]. split; [reflexivity|]. now constructor.
Qed.

(** ** Values from several models *)
(** The first model that has the name gives the value. *)
Theorem C74_first_model : forall ms s,
  (forall x, ref_value (map SModel ms) s = Ok x <-> exists l m r, ms = l ++ m :: r /\ row_at (rows m) s = Some x /\ forall m', In m' l -> row_at (rows m') s = None) /\
  (forall e, ref_value (map SModel ms) s = Raise e -> e = KeyError s /\ forall m, In m ms -> row_at (rows m) s = None).
Proof.
  intros ms s. split.
  - intro x. induction ms as [|m ms IH]; cbn [map ref_value].
    + split; [discriminate|]. intros [l [m [r [E _]]]]. destruct l; discriminate.
    + unfold get_value. destruct (row_at (rows m) s) as [v|] eqn:E.
      * split.
        -- injection 1 as <-. exists [], m, ms. repeat split; auto. intros ? [].
        -- intros [l [m' [r [Q [H N]]]]]. destruct l as [|y l]; cbn in Q; injection Q as <- Q; [congruence|]. rewrite (N m (or_introl eq_refl)) in E. discriminate.
      * rewrite IH. split; intros [l [m' [r [Q [H N]]]]].
        -- exists (m :: l), m', r. subst. repeat split; auto. intros z [<-|Z]; auto.
        -- destruct l as [|y l]; cbn in Q; injection Q as <- Q; [congruence|]. exists l, m', r. repeat split; auto. intros z Z. apply N. now right.
  - induction ms as [|m ms IH]; intro e; cbn [map ref_value].
    + injection 1 as <-. split; [reflexivity|]. intros ? [].
    + unfold get_value. destruct (row_at (rows m) s) as [v|] eqn:E; [discriminate|]. intro H. destruct (IH e H) as [A B]. split; [exact A|]. intros m' [<-|I]; auto.
Qed.
(** Wrong: a dict without the name ends the search. *)
Theorem C74_dict_source_refuted : exists l m, get_value m "a" = Ok 5%R /\ row_at l "a" = None /\
  ref_value [SModel m; SDict l] "a" = Ok 5%R /\ ref_value [SDict l; SModel m] "a" = Raise AttributeError.
Proof. exists [("b", 1%R)], (mkPm [("a", 5%R)] []). repeat split; reflexivity. Qed.

(** ** Cases that meet the hypotheses *)
(** helper: a model (parameter_frame.pyx 233). *)
Definition model0 : pmodel := mkPm [("a", 5%R); ("t", 2%R)] [].
(** helper: something asked (parameter_frame.pyx 260-294). *)
Definition item0 : item := Dict [("vot", Expr (EDiv (ERef "a") (ENeg (ERef "t")))); ("all", Seq true [Name "t"; Expr (ERef "zz")]); ("one", Num 1)].
Example answers0 : waiting model0 = [] /\ keyable item0 /\
  snd (pvalue true model0 item0) = Ok (Map [(Own "vot", Value (5 / - (2))); (Own "all", Map [(Asked (Name "t"), Value 2); (Asked (Expr (ERef "zz")), Default)]); (Own "one", Value 1)]) /\
  snd (pvalue false model0 item0) = Raise (KeyError "zz").
Proof. repeat split. Qed.
Example plain0 : plain (Seq true [Name "b"; Expr (ENum 2)]) /\ waiting (mkPm [] [("b", 0%R)]) <> [].
Proof. cbn. repeat split; discriminate. Qed.
Example first0 : ref_value (map SModel [mkPm [] []; model0; mkPm [("a", 7%R)] []]) "a" = Ok 5%R.
Proof. reflexivity. Qed.
