(** Proofs about the printed form of parameter arithmetic. *)
From Verif Require Import LinModel LinSpec LinProofs.
Open Scope R_scope.

Section Print.
Variable p : string -> R.
Variable other : op -> R -> R -> R.
Variable inv : R -> R.
Notation eval := (eval p other inv).
Notation means := (means p other inv).

(** [t] read by the multiplicative level has value [v], leaving any rest that is not a power. *)
Definition chain4 (t : text) (v : R) : Prop :=
  forall r, no_pow r -> exists e1 r1 m, runs (Bin 5) (t ++ r) e1 r1 /\ v = eval e1 * m /\
  forall acc, exists acc', eval acc' = eval acc * m /\
    forall fin rr, runs (Rest 4 acc') r fin rr -> runs (Rest 4 acc) r1 fin rr.
Definition chain3 (t : text) (v : R) : Prop :=
  forall r, no_pow r -> no_op 4 r -> exists e1 r1 m, runs (Bin 4) (t ++ r) e1 r1 /\ v = eval e1 + m /\
  forall acc, exists acc', eval acc' = eval acc + m /\
    forall fin rr, runs (Rest 3 acc') r fin rr -> runs (Rest 3 acc) r1 fin rr.

Lemma unary_chain4 t v : (forall r, no_pow r -> exists e, runs Unary (t ++ r) e r /\ eval e = v) -> chain4 t v.
Proof.
  intros H r Hr. destruct (H r Hr) as (e & He & Ev). exists e, r, 1. split; [apply runs_bin5; auto|].
  split; [rewrite Ev; ring|]. intros acc. exists acc. split; [ring|auto].
Qed.
Lemma prim_chain4 t e v : prim_text t e -> eval e = v -> chain4 t v.
Proof. intros H E. apply unary_chain4. intros r Hr. exists e. split; auto. apply prim_unary; auto. Qed.
Lemma chain4_bin4 t v r : chain4 t v -> no_pow r -> no_op 4 r -> exists e, runs (Bin 4) (t ++ r) e r /\ eval e = v.
Proof.
  intros H Hr Hn. destruct (H r Hr) as (e1 & r1 & m & H1 & -> & H2). destruct (H2 e1) as (acc' & E & H3).
  exists acc'. split; auto. apply (runs_bin 4 _ e1 r1); auto. apply H3. apply runs_rest_stop; auto.
Qed.
Lemma chain4_chain3 t v : chain4 t v -> chain3 t v.
Proof.
  intros H r Hr Hn. destruct (chain4_bin4 _ _ _ H Hr Hn) as (e & He & Ev). exists e, r, 0.
  split; auto. split; [rewrite Ev; ring|]. intros acc. exists acc. split; [ring|auto].
Qed.
Lemma chain3_means t v : not_tx (t ++ []) -> chain3 t v -> means t v.
Proof.
  intros Hx H. destruct (H []) as (e1 & r1 & m & H1 & -> & H2); try exact I.
  destruct (H2 e1) as (acc' & E & H3). apply means_runs. exists acc'. split; auto.
  rewrite app_nil_r in *. apply runs_whole; auto. apply (climb _ _ _ 0 3); try lia; [|intros; exact I].
  apply (runs_bin 3 _ e1 r1); auto. apply H3. apply runs_rest_stop. exact I.
Qed.
Lemma add_chain3 o ta tb va vb : o = Plus \/ o = Minus -> chain3 ta va -> chain3 tb vb ->
  (o = Minus -> chain4 tb vb) -> chain3 (ta ++ TO o :: tb) (arith other o va vb).
Proof.
  intros Ho Ha Hb Hm r Hr Hn.
  assert (Q1 : no_pow (TO o :: tb ++ r)) by (destruct Ho; subst; exact I).
  assert (Q2 : no_op 4 (TO o :: tb ++ r)) by (destruct Ho; subst; simpl; lia).
  rewrite <- app_assoc. simpl. destruct (Ha _ Q1 Q2) as (ea & ra & ma & A1 & A2 & A3).
  assert (Lv : level o = 3%nat) by (destruct Ho; subst; auto).
  destruct Ho as [ -> | -> ].
  - destruct (Hb r Hr Hn) as (eb & rb & mb & B1 & B2 & B3). exists ea, ra, (ma + vb).
    split; [exact A1|]. split; [simpl; rewrite A2; ring|]. intros acc. destruct (A3 acc) as (acc1 & E1 & C1).
    destruct (B3 (YBin Plus acc1 eb)) as (acc2 & E2 & C2). exists acc2. split.
    + rewrite E2. simpl. rewrite E1, B2. ring.
    + intros fin rr H. apply C1. apply (runs_rest_op 3 Plus _ eb _ rb); auto.
  - destruct (chain4_bin4 _ _ r (Hm eq_refl) Hr Hn) as (eb & B1 & B2). exists ea, ra, (ma - vb).
    split; [exact A1|]. split; [simpl; rewrite A2; ring|]. intros acc. destruct (A3 acc) as (acc1 & E1 & C1).
    exists (YBin Minus acc1 eb). split; [simpl; rewrite E1, B2; ring|].
    intros fin rr H. apply C1. apply (runs_rest_op 3 Minus _ eb _ r); auto.
Qed.
Lemma mul_chain4 o ta tb va vb : o = Times \/ o = Div -> chain4 ta va -> chain4 tb vb ->
  (o = Div -> exists e, prim_text tb e /\ eval e = vb) -> chain4 (ta ++ TO o :: tb) (arith other o va vb).
Proof.
  intros Ho Ha Hb Hm r Hr.
  assert (Q1 : no_pow (TO o :: tb ++ r)) by (destruct Ho; subst; exact I).
  rewrite <- app_assoc. simpl. destruct (Ha _ Q1) as (ea & ra & ma & A1 & A2 & A3).
  destruct Ho as [ -> | -> ].
  - destruct (Hb r Hr) as (eb & rb & mb & B1 & B2 & B3). exists ea, ra, (ma * vb).
    split; [exact A1|]. split; [simpl; rewrite A2; ring|]. intros acc. destruct (A3 acc) as (acc1 & E1 & C1).
    destruct (B3 (YBin Times acc1 eb)) as (acc2 & E2 & C2). exists acc2. split.
    + rewrite E2. simpl. rewrite E1, B2. ring.
    + intros fin rr H. apply C1. apply (runs_rest_op 4 Times _ eb _ rb); auto.
  - destruct (Hm eq_refl) as (eb & B1 & B2). exists ea, ra, (ma / vb).
    split; [exact A1|]. split; [simpl; rewrite A2; unfold Rdiv; ring|]. intros acc. destruct (A3 acc) as (acc1 & E1 & C1).
    exists (YBin Div acc1 eb). split; [simpl; rewrite E1, B2; unfold Rdiv; ring|].
    intros fin rr H. apply C1. apply (runs_rest_op 4 Div _ eb _ r); auto. apply runs_bin5, prim_unary; auto.
Qed.
Lemma num_unary v r : no_pow r -> exists e, runs Unary (num_text v ++ r) e r /\ eval e = v.
Proof.
  intros Hr. unfold num_text. destruct (Rlt_dec v 0).
  - exists (YNeg (YN (- v))). split; [|simpl; ring]. apply (neg_unary [TN (- v)]). apply (prim_unary [TN (-v)]); auto. apply prim_tn.
  - exists (YN v). split; auto. apply (prim_unary [TN v]); auto. apply prim_tn.
Qed.
Lemma show_head e : forall t, show e = Some t -> forall r, not_tx (t ++ r).
Proof.
  induction e as [v|s|c|a IH|o a IHa b IHb]; simpl; intros t H r; try discriminate.
  - injection H as <-. unfold num_text. destruct (Rlt_dec v 0); exact I.
  - injection H as <-. exact I.
  - destruct (show a) as [ta|]; [|discriminate]. injection H as <-. destruct (Nat.ltb _ _); [exact I|]. auto.
  - destruct (show a) as [ta|]; [|discriminate]. destruct (show b) as [tb|]; [|discriminate]. injection H as <-.
    destruct (Nat.ltb (prec a) _); [exact I|]. rewrite <- app_assoc. auto.
Qed.
Definition wrap (q : nat) (a : pexpr) (t : text) : text := if Nat.ltb (prec a) q then TL :: t ++ [TR] else t.
Definition good (e : pexpr) (t : text) (v : R) : Prop :=
  chain3 t v /\ ((11 <= prec e)%nat -> chain4 t v) /\ ((98 <= prec e)%nat -> exists y, prim_text t y /\ eval y = v).
Lemma good_means e t v : show e = Some t -> good e t v -> means t v.
Proof. intros Hs (H & _). apply chain3_means; auto. apply (show_head _ _ Hs). Qed.
Lemma wrap_prim e t v q : show e = Some t -> good e t v -> (q <= 98)%nat -> (prec e < q \/ 98 <= prec e)%nat ->
  exists y, prim_text (wrap q e t) y /\ eval y = v.
Proof.
  intros Hs Hg Hq Hp. unfold wrap. destruct (Nat.ltb_spec (prec e) q).
  - pose proof (good_means _ _ _ Hs Hg) as M. apply means_runs in M. destruct M as (y & M & E).
    exists y. split; auto. apply prim_paren; auto.
  - destruct Hp as [Hp|Hp]; [lia|]. destruct Hg as (_ & _ & H3). auto.
Qed.
Lemma wrap_chain4 e t v : show e = Some t -> good e t v -> (prec e < 10 \/ 11 <= prec e)%nat -> chain4 (wrap 10 e t) v.
Proof.
  intros Hs Hg Hp. destruct (Nat.ltb_spec (prec e) 10).
  - destruct (wrap_prim e t v 10 Hs Hg) as (y & Py & Ey); [lia|lia|]. eapply prim_chain4; eauto.
  - unfold wrap. destruct (Nat.ltb_spec (prec e) 10); [lia|]. apply Hg. lia.
Qed.
Lemma wrap_chain3 e t v : show e = Some t -> good e t v -> chain3 (wrap 10 e t) v.
Proof.
  intros Hs Hg. unfold wrap. destruct (Nat.ltb_spec (prec e) 10); [|apply Hg].
  destruct (wrap_prim e t v 10 Hs Hg) as (y & Py & Ey); [lia|lia|].
  apply chain4_chain3. unfold wrap in Py. destruct (Nat.ltb_spec (prec e) 10); [|lia]. eapply prim_chain4; eauto.
Qed.
Lemma wrap11_chain4 e t v : show e = Some t -> good e t v -> chain4 (wrap 11 e t) v.
Proof.
  intros Hs Hg. destruct (Nat.ltb_spec (prec e) 11).
  - destruct (wrap_prim e t v 11 Hs Hg) as (y & Py & Ey); [lia|lia|]. eapply prim_chain4; eauto.
  - unfold wrap. destruct (Nat.ltb_spec (prec e) 11); [lia|]. apply Hg. lia.
Qed.
Lemma prec_pos e : prec e = 0%nat \/ (prec e = 10 \/ prec e = 11 \/ 98 <= prec e)%nat.
Proof. destruct e; simpl; auto; try lia. destruct o; auto. Qed.
Lemma show_good e : forall t v, printable e -> show e = Some t -> pvalue p other e = Some v -> good e t v.
Proof.
  induction e as [a|s|c|a IH|o a IHa b IHb]; simpl; intros t v Hp Hs Hv; try discriminate.
  - injection Hs as <-. injection Hv as <-.
    assert (chain4 (num_text a) a) by (apply unary_chain4; intros; apply num_unary; auto).
    split; [apply chain4_chain3; auto|]. split; simpl; intros; [auto|lia].
  - injection Hs as <-. injection Hv as <-.
    assert (chain4 [TA s] (p s)) by (eapply prim_chain4; [apply prim_ta|auto]).
    split; [apply chain4_chain3; auto|]. split; auto. intros _. exists (YA s). split; [apply prim_ta|auto].
  - destruct (show a) as [ta|] eqn:Ea; [|discriminate]. injection Hs as <-.
    specialize (IH ta v Hp eq_refl Hv). change (good (PNoop a) (wrap 98 a ta) v).
    destruct (wrap_prim a ta v 98 Ea IH) as (y & Py & Ey); [lia| |].
    { destruct (prec_pos a) as [?|[?|[?|?]]]; lia. }
    assert (chain4 (wrap 98 a ta) v) by (eapply prim_chain4; eauto).
    split; [apply chain4_chain3; auto|]. split; auto. intros _. eauto.
  - destruct Hp as (Pa & Pb & Po). destruct (show a) as [ta|] eqn:Ea; [|discriminate].
    destruct (show b) as [tb|] eqn:Eb; [|discriminate].
    destruct (pvalue p other a) as [va|] eqn:Va; [|discriminate].
    destruct (pvalue p other b) as [vb|] eqn:Vb; [|discriminate]. injection Hv as <-.
    specialize (IHa ta va Pa eq_refl eq_refl). specialize (IHb tb vb Pb eq_refl eq_refl).
    assert (Add : forall o', o = o' -> o' = Plus \/ o' = Minus ->
              good (POp o a b) (wrap 10 a ta ++ TO o :: wrap 10 b tb) (arith other o va vb)).
    { intros o' -> Ho. assert (prec (POp o' a b) = 10%nat) by (destruct Ho; subst; auto).
      split; [|split; intros; lia]. apply add_chain3; auto.
      - apply wrap_chain3; auto.
      - apply wrap_chain3; auto.
      - intros ->. apply wrap_chain4; auto. destruct b; simpl in *; try lia. destruct o; try contradiction; simpl; lia. }
    assert (Mul : forall o', o = o' -> o' = Times \/ o' = Div ->
              good (POp o a b) (wrap 11 a ta ++ TO o :: wrap 11 b tb) (arith other o va vb)).
    { intros o' -> Ho. assert (prec (POp o' a b) = 11%nat) by (destruct Ho; subst; auto).
      assert (C : chain4 (wrap 11 a ta ++ TO o' :: wrap 11 b tb) (arith other o' va vb)).
      { apply mul_chain4; auto.
        - apply wrap11_chain4; auto.
        - apply wrap11_chain4; auto.
        - intros ->. apply wrap_prim; auto; [lia|].
          destruct b; simpl in *; try lia. destruct Pb as (_ & _ & Pb). destruct o; simpl; try contradiction; lia. }
      split; [apply chain4_chain3; auto|]. split; intros; [auto|lia]. }
    destruct o; try contradiction; injection Hs as <-.
    + apply (Add Plus); auto.
    + apply (Add Minus); auto.
    + apply (Mul Times); auto.
    + apply (Mul Div); auto.
Qed.
End Print.
