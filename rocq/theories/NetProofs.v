(** Proofs about the Cython nested logit kernel: node utilities and probabilities. *)
From Coq Require Import Permutation Sorted FunctionalExtensionality.
From Verif Require Export NetSpec LogitProofs.

Lemma upd_id {A} (f : nat -> A) k v : f k = v -> upd f k v = f.
Proof. intros <-. apply functional_extensionality. intros i. unfold upd. destruct (Nat.eqb_spec i k); subst; auto. Qed.

(** ---------- one nest ---------- *)
Definition e_z (m : R) (U : nat -> option R) (e : nat * nat * R) : R := (ln (e_al e) + uval (U (e_dn e))) / m.
Lemma top_inv m U L acc : (forall c, snd acc = Some c -> exists e, In e L /\ e_dn e = c /\ e_z m U e = fst acc) \/ snd acc = None ->
  forall L', let r := fold_left (top_step m U) L' acc in
  snd r = None \/ exists e, In e (L ++ L') /\ snd r = Some (e_dn e) /\ e_z m U e = fst r.
Proof.
  intros H L'. revert L acc H. induction L' as [|e L' IH]; intros L acc H; cbn [fold_left].
  - rewrite app_nil_r. destruct H as [H|H]; [ | now left ]. destruct (snd acc) as [c|] eqn:E; [ | now left ].
    destruct (H c eq_refl) as (e & He & <- & Hz). right. exists e. auto.
  - assert (G : snd (top_step m U acc e) = None \/
        exists e', In e' (L ++ [e]) /\ snd (top_step m U acc e) = Some (e_dn e') /\ e_z m U e' = fst (top_step m U acc e)).
    { assert (G0 : snd acc = None \/ exists e', In e' (L ++ [e]) /\ snd acc = Some (e_dn e') /\ e_z m U e' = fst acc).
      { destruct H as [H|H]; [ | now left ]. destruct (snd acc) as [c|] eqn:E; [ | now left ].
        destruct (H c eq_refl) as (e' & He & <- & Hz). right. exists e'. split; [ apply in_or_app; now left | auto ]. }
      unfold top_step. destruct (U (e_dn e)) as [u|] eqn:Eu; auto. destruct (Rlt_dec 0 (e_al e)); auto.
      destruct (Rlt_dec (fst acc) _); auto. right. exists e. cbn [fst snd]. split; [ apply in_or_app; right; now left | ].
      split; auto. unfold e_z. now rewrite Eu. }
    assert (E : L ++ e :: L' = (L ++ [e]) ++ L') by (rewrite <- app_assoc; auto). rewrite E.
    apply IH. destruct G as [G|(e' & H1 & H2 & H3)]; [ now right | left ]. intros c Hc.
    exists e'. rewrite H2 in Hc. injection Hc as <-. auto.
Qed.
Definition e_term (m : R) (U : nat -> option R) (e : nat * nat * R) : R := term m U (e_dn e, e_al e).
Lemma sum_loop m U sh pos L : (forall e, In e L -> 0 < e_al e) ->
  (forall e c, In e L -> pos = Some c -> c = e_dn e -> U c <> None -> e_z m U e = sh) ->
  forall acc, fold_left (sum_step m U sh pos) L acc = acc + exp (- sh) * Rsum (e_term m U) L.
Proof.
  induction L as [|e L IH]; intros Ha Hp acc; cbn [fold_left Rsum fold_right]; [ lra | ].
  rewrite IH; [ | intros; apply Ha; now right | intros e' c He; apply Hp; now right ]. fold (Rsum (e_term m U) L).
  assert (Hal := Ha e (or_introl eq_refl)). assert (Hpe := fun c => Hp e c (or_introl eq_refl)).
  unfold sum_step, e_term, term. cbn [fst snd]. destruct (U (e_dn e)) as [u|] eqn:Eu; [ | lra ].
  destruct (Rlt_dec 0 (e_al e)); [ | lra ].
  assert (Hx : exp (- sh) * exp ((ln (e_al e) + u) / m) = exp ((ln (e_al e) + u) / m - sh)).
  { rewrite <- exp_plus. f_equal. lra. }
  destruct pos as [c|].
  - destruct (Nat.eqb_spec c (e_dn e)) as [ ->|Hne].
    + assert (E : e_z m U e = sh) by (apply (Hpe (e_dn e)); auto; congruence).
      unfold e_z in E. rewrite Eu in E. cbn [uval] in E. rewrite <- E in Hx at 2.
      replace ((ln (e_al e) + u) / m - (ln (e_al e) + u) / m) with 0 in Hx by lra. rewrite exp_0 in Hx. lra.
    + lra.
  - lra.
Qed.
Lemma term_nonneg m U ja : 0 <= term m U ja.
Proof. unfold term. destruct (U (fst ja)); [ left; apply exp_pos | lra ]. Qed.
Lemma nest_sum_nonneg m U cs : 0 <= nest_sum m U cs.
Proof. apply Rsum_nonneg. intros. apply term_nonneg. Qed.
Lemma nest_sum_pos m U cs : 0 < nest_sum m U cs <-> exists ja, In ja cs /\ U (fst ja) <> None.
Proof.
  split.
  - intros H.
    assert (dec : forall ja : nat * R, {U (fst ja) <> None} + {~ U (fst ja) <> None}).
    { intros ja. destruct (U (fst ja)); [ left; discriminate | right; intros E; apply E; auto ]. }
    destruct (List.Exists_dec (fun ja => U (fst ja) <> None) cs dec) as [E|E].
    + apply Exists_exists in E. auto.
    + exfalso. unfold nest_sum in H. rewrite Rsum_zero in H; [ lra | ]. intros ja Hj. unfold term.
      destruct (U (fst ja)) eqn:E2; auto. exfalso. apply E. apply Exists_exists. exists ja. split; auto. congruence.
  - intros (ja & Hj & Hu). unfold nest_sum. apply (Rsum_pos _ _ ja); auto; [ intros; apply term_nonneg | ].
    unfold term. destruct (U (fst ja)); [ apply exp_pos | congruence ].
Qed.
Definition mk (k : nat) (ja : nat * R) : nat * nat * R := (k, fst ja, snd ja).
Lemma nest_up_val w mu U k cs : mu k <> 0 -> slice w k = map (mk k) cs ->
  NoDup (map fst cs) -> (forall j a, In (j, a) cs -> 0 < a) ->
  is_logsum (mu k) U cs (nest_up w mu U k k).
Proof.
  intros Hm Hs Hnd Ha. unfold nest_up, is_logsum. rewrite Hs.
  pose proof (top_inv (mu k) U [] (- 10 ^ 100, None) (or_intror eq_refl) (map (mk k) cs)) as Ht. cbn [app] in Ht.
  destruct (fold_left (top_step (mu k) U) (map (mk k) cs) _) as [sh pos]. cbn [fst snd] in Ht. rewrite upd_eq.
  assert (Hsum : fold_left (sum_step (mu k) U sh pos) (map (mk k) cs) 0 = exp (- sh) * nest_sum (mu k) U cs).
  { rewrite sum_loop.
    - rewrite Rsum_map, Rplus_0_l. unfold nest_sum. reflexivity.
    - intros e He. apply in_map_iff in He as ([j a] & <- & Hj). apply (Ha j a Hj).
    - intros e c He -> -> _. destruct Ht as [Ht|(e' & He' & Ht & Hz)]; [ discriminate | ].
      injection Ht as Ht. replace e with e'; auto.
      apply in_map_iff in He as ([j a] & <- & Hj). apply in_map_iff in He' as ([j' a'] & <- & Hj').
      cbn in Ht. subst j'. unfold mk. cbn [fst snd]. do 2 f_equal.
      clear -Hnd Hj Hj'. induction cs as [|[x y] cs IH]; [ destruct Hj | ]. cbn in Hnd. inversion Hnd as [|q l Hq Hl]; subst.
      destruct Hj as [Hj|Hj], Hj' as [Hj'|Hj'].
      + congruence.
      + injection Hj as -> ->. exfalso. apply Hq. apply (in_map fst) in Hj'. auto.
      + injection Hj' as -> ->. exfalso. apply Hq. apply (in_map fst) in Hj. auto.
      + auto. }
  rewrite Hsum. assert (He := exp_pos (- sh)). destruct (Rlt_dec 0 (nest_sum (mu k) U cs)) as [Hp|Hp].
  - destruct (Rlt_dec 0 _) as [_|Hn]; [ | exfalso; apply Hn; apply Rmult_lt_0_compat; auto ].
    f_equal. rewrite ln_mult, ln_exp by auto. lra.
  - destruct (Rlt_dec 0 _) as [Hn|_]; auto. exfalso. apply Hp.
    assert (H0 := nest_sum_nonneg (mu k) U cs). destruct H0 as [H0|H0]; auto. rewrite <- H0 in Hn. lra.
Qed.
Lemma is_logsum_fun m U cs x y : is_logsum m U cs x -> is_logsum m U cs y -> x = y.
Proof. unfold is_logsum. destruct (Rlt_dec _ _); congruence. Qed.
Lemma term_ext m U U' cs : (forall ja, In ja cs -> U (fst ja) = U' (fst ja)) -> nest_sum m U cs = nest_sum m U' cs.
Proof. intros H. apply Rsum_ext. intros ja Hj. unfold term. now rewrite H. Qed.
Lemma logsum_ext m U U' cs x : (forall ja, In ja cs -> U (fst ja) = U' (fst ja)) -> is_logsum m U cs x -> is_logsum m U' cs x.
Proof. intros H. unfold is_logsum. now rewrite (term_ext m U U' cs H). Qed.

(** ---------- loops over edges ---------- *)
Lemma fold_acc {E} (t s : E -> nat) (F : E -> R -> R) (L : list E) :
  (forall l1 e l2, L = l1 ++ e :: l2 -> ~ In (s e) (map t (e :: l2))) ->
  forall M0, let V := fold_left (fun M e => upd M (t e) (M (t e) + F e (M (s e)))) L M0 in
  forall c, V c = M0 c + Rsum (fun e => if (t e =? c)%nat then F e (V (s e)) else 0) L.
Proof.
  induction L as [|e L IH]; intros Hord M0; cbn [fold_left]; [ intros c; simpl; lra | ].
  assert (Hord' : forall l1 e' l2, L = l1 ++ e' :: l2 -> ~ In (s e') (map t (e' :: l2))).
  { intros l1 e' l2 E0. apply (Hord (e :: l1) e' l2). now rewrite E0. }
  specialize (IH Hord' (upd M0 (t e) (M0 (t e) + F e (M0 (s e))))). cbn zeta in IH.
  set (V := fold_left _ L _) in *. intros c. rewrite IH. cbn [Rsum fold_right]. fold (Rsum (fun e0 => if (t e0 =? c)%nat then F e0 (V (s e0)) else 0) L).
  assert (Hs := Hord [] e L eq_refl). cbn [map In] in Hs.
  assert (EV : V (s e) = M0 (s e)).
  { rewrite IH. rewrite upd_neq by (intros E0; apply Hs; left; auto). rewrite Rsum_zero; [ lra | ]. intros e' He'.
    destruct (Nat.eqb_spec (t e') (s e)) as [E0|]; auto. exfalso. apply Hs. right. rewrite <- E0. now apply in_map. }
  rewrite EV. unfold upd. rewrite (Nat.eqb_sym c (t e)). destruct (Nat.eqb_spec (t e) c) as [ ->|]; lra.
Qed.

Section Net.
Variable w : net.
Variable kids : nat -> list (nat * R).
Hypothesis T : net_dag w kids.
Notation na := (w_alts w).
Notation n := (w_nodes w).

Lemma kid_lt k j a : In (j, a) (kids k) -> (j < k)%nat. Proof. intros H. now apply (nd_less _ _ T) in H. Qed.
Lemma kid_al k j a : In (j, a) (kids k) -> 0 < a. Proof. intros H. now apply (nd_less _ _ T) in H. Qed.
Lemma kid_nest k j a : In (j, a) (kids k) -> (na <= k)%nat.
Proof. intros H. destruct (Nat.lt_ge_cases k na); auto. rewrite (nd_leaf _ _ T) in H by auto. destruct H. Qed.
Lemma in_edges e : In e (w_edges w) <-> (e_up e < n)%nat /\ In (e_dn e, e_al e) (kids (e_up e)).
Proof.
  rewrite (nd_edges _ _ T), in_flat_map. destruct e as [[u d] al]. cbn [e_up e_dn e_al fst snd]. split.
  - intros (k & Hk & He). apply in_seq in Hk. apply in_map_iff in He as ([j a] & E & Hj). cbn in E. injection E as -> -> ->. split; auto; lia.
  - intros [H1 H2]. exists u. split; [ apply in_seq; lia | ]. apply in_map_iff. exists (d, al). auto.
Qed.
Lemma edges_sorted : StronglySorted (fun e f => (e_up e <= e_up f)%nat) (w_edges w).
Proof.
  rewrite (nd_edges _ _ T). generalize (w_nodes w) as m. intros m. generalize 0%nat as a. induction m as [|m IH]; intros a; [ constructor | ].
  cbn [seq flat_map]. assert (Hge : forall e, In e (flat_map (fun k => map (fun ja => (k, fst ja, snd ja)) (kids k)) (seq (S a) m)) -> (a <= e_up e)%nat).
  { intros e He. apply in_flat_map in He as (k & Hk & He). apply in_seq in Hk. apply in_map_iff in He as (ja & <- & _). cbn. lia. }
  induction (kids a) as [|ja cs IHc]; cbn [map app]; [ apply IH | ]. constructor; auto.
  apply Forall_forall. intros e He. apply in_app_or in He as [He|He]; [ apply in_map_iff in He as (x & <- & _); cbn; lia | ].
  apply Hge in He. cbn. lia.
Qed.
Lemma sorted_split l1 e l2 : w_edges w = l1 ++ e :: l2 ->
  (forall f, In f l1 -> (e_up f <= e_up e)%nat) /\ (forall f, In f l2 -> (e_up e <= e_up f)%nat).
Proof.
  intros E. assert (Hs := edges_sorted). rewrite E in Hs. clear E. induction l1 as [|x l1 IH].
  - cbn in Hs. inversion Hs as [|y l Hl Hf]; subst. split; [ intros f [] | ]. now apply Forall_forall.
  - cbn in Hs. inversion Hs as [|y l Hl Hf]; subst. destruct (IH Hl) as [I1 I2]. split; auto. intros f [ ->|Hf']; auto.
    rewrite Forall_forall in Hf. apply Hf. apply in_or_app. right. now left.
Qed.
Lemma rev_order_net l1 e l2 : rev (w_edges w) = l1 ++ e :: l2 -> ~ In (e_up e) (map e_dn (e :: l2)).
Proof.
  intros E. assert (E' : w_edges w = rev l2 ++ e :: rev l1).
  { rewrite <- (rev_involutive (w_edges w)), E, rev_app_distr. cbn [rev]. now rewrite <- app_assoc. }
  assert (Hlt : forall f, In f (w_edges w) -> (e_dn f < e_up f)%nat).
  { intros f Hf. apply in_edges in Hf as [_ Hf]. now apply kid_lt in Hf. }
  destruct (sorted_split _ _ _ E') as [Hb _]. intros Hi. apply in_map_iff in Hi as (f & Ef & Hf).
  assert (Hfin : In f (w_edges w)). { rewrite E'. apply in_or_app. destruct Hf as [ <-|Hf]; [ right; now left | left; now apply -> in_rev ]. }
  assert (e_up f <= e_up e)%nat by (destruct Hf as [ <-|Hf]; [ lia | apply Hb; now apply -> in_rev ]).
  specialize (Hlt f Hfin). lia.
Qed.

(** sums over edges, by parent and by child *)
Lemma Rsum_swap {A B} (f : A -> B -> R) l1 l2 : Rsum (fun a => Rsum (f a) l2) l1 = Rsum (fun b => Rsum (fun a => f a b) l1) l2.
Proof.
  induction l1 as [|a l1 IH]; [ cbn; symmetry; apply Rsum_zero; auto | ].
  cbn [Rsum fold_right]. fold (Rsum (fun a0 => Rsum (f a0) l2) l1). rewrite IH, <- Rsum_plus. auto.
Qed.
Lemma sum_edges (f : nat * nat * R -> R) : Rsum f (w_edges w) = Rsum (fun k => Rsum (fun ja => f (mk k ja)) (kids k)) (seq 0 n).
Proof. rewrite (nd_edges _ _ T), Rsum_flat_map. apply Rsum_ext. intros k _. now rewrite Rsum_map. Qed.
Lemma Rsum_pick (x : R) c m : (c < m)%nat -> Rsum (fun j => if (c =? j)%nat then x else 0) (seq 0 m) = x.
Proof.
  intros H. rewrite (Rsum_ext _ (fun j => if (j =? c)%nat then x else 0)) by (intros; now rewrite Nat.eqb_sym).
  replace m with (c + S (m - c - 1))%nat by lia. rewrite seq_app, Rsum_app. cbn [seq Rsum fold_right plus].
  rewrite (Rsum_zero _ (seq 0 c)); [ | intros j Hj; apply in_seq in Hj; destruct (Nat.eqb_spec j c); auto; lia ].
  fold (Rsum (fun j => if (j =? c)%nat then x else 0) (seq (S c) (m - c - 1))).
  rewrite Rsum_zero; [ rewrite Nat.eqb_refl; lra | ].
  intros j Hj. apply in_seq in Hj. destruct (Nat.eqb_spec j c); auto; lia.
Qed.
(** Summing over the children, parent by parent, is summing over the nodes but the root. *)
Lemma sum_children (f : nat -> nat * R -> R) :
  Rsum (fun c => over_parents w kids c f) (seq 0 (n - 1)) = Rsum (fun k => Rsum (f k) (kids k)) (seq 0 n).
Proof.
  unfold over_parents. rewrite Rsum_swap. apply Rsum_ext. intros k Hk. apply in_seq in Hk. rewrite Rsum_swap.
  apply Rsum_ext. intros [j a] Hj. cbn [fst]. apply Rsum_pick. apply kid_lt in Hj. lia.
Qed.

(** ---------- utilities ---------- *)
Variable mu : nat -> R.
Hypothesis Hmu : forall k, (na <= k < n)%nat -> 0 < mu k.
Variable u : nat -> option R.
Notation U := (net_utilities w mu u).

Lemma nest_up_ext V V' k : (na <= k < n)%nat -> (forall j, (j < k)%nat -> V j = V' j) -> nest_up w mu V k k = nest_up w mu V' k k.
Proof.
  intros Hk H. assert (Hm := Hmu k Hk).
  assert (G : forall X, is_logsum (mu k) X (kids k) (nest_up w mu X k k)).
  { intros X. apply nest_up_val; [ lra | now apply (nd_slice _ _ T) | apply (nd_once _ _ T) | apply kid_al ]. }
  apply (is_logsum_fun (mu k) V' (kids k)); auto. apply (logsum_ext _ V); auto. intros [j a] Hj. apply H. now apply kid_lt in Hj.
Qed.
Lemma net_U_spec : (forall a, (a < na)%nat -> U a = u a) /\ (forall k, (na <= k < n)%nat -> is_logsum (mu k) U (kids k) (U k)).
Proof.
  assert (Hr := nd_root _ _ T).
  destruct (fold_up (fun V k => nest_up w mu V k k) na n) with (m := (n - na)%nat) (a := na) (U0 := u) as [I1 I2]; try lia.
  { intros V V' k Hk Hj _. now apply nest_up_ext. }
  assert (E : U = fold_left (fun V k => upd V k (nest_up w mu V k k)) (seq na (n - na)) u).
  { unfold net_utilities. f_equal. apply functional_extensionality. intros V. apply functional_extensionality. intros k.
    unfold nest_up. destruct (fold_left (top_step (mu k) V) (slice w k) _). now rewrite upd_eq. }
  rewrite E. set (V := fold_left _ _ _) in *. split; [ intros; apply I1; lia | ]. intros k Hk. rewrite I2 by lia.
  apply (logsum_ext _ (upd V k (u k))).
  - intros [j a] Hj. apply upd_neq. apply kid_lt in Hj. cbn. lia.
  - assert (Hm := Hmu k Hk). apply nest_up_val; [ lra | now apply (nd_slice _ _ T) | apply (nd_once _ _ T) | apply kid_al ].
Qed.
Lemma U_alt_net a : (a < na)%nat -> U a = u a. Proof. apply net_U_spec. Qed.
Lemma U_fin k : (na <= k < n)%nat -> (U k <> None <-> exists j a, In (j, a) (kids k) /\ U j <> None).
Proof.
  intros Hk. assert (H := proj2 net_U_spec k Hk). unfold is_logsum in H. destruct (Rlt_dec 0 _) as [Hp|Hp].
  - rewrite H. split; [ intros _ | discriminate ]. apply nest_sum_pos in Hp as ([j a] & Hj & Hu). eauto.
  - rewrite H. split; [ congruence | ]. intros (j & a & Hj & Hu). exfalso. apply Hp. apply nest_sum_pos. exists (j, a). auto.
Qed.
Lemma U_val k : (na <= k < n)%nat -> U k <> None -> 0 < nest_sum (mu k) U (kids k) /\ U k = Some (mu k * ln (nest_sum (mu k) U (kids k))).
Proof. intros Hk Hf. assert (H := proj2 net_U_spec k Hk). unfold is_logsum in H. destruct (Rlt_dec 0 _); auto. congruence. Qed.
Lemma U_fin_parent k j a : (k < n)%nat -> In (j, a) (kids k) -> U j <> None -> U k <> None.
Proof. intros Hk Hj Hu. apply U_fin; [ split; auto; now apply kid_nest in Hj | eauto ]. Qed.
Lemma U_above k a : net_under kids k a -> (k < n)%nat -> U a <> None -> U k <> None.
Proof.
  induction 1 as [k|k j al a Hj H IH]; auto. intros Hk Hu. apply (U_fin_parent k j al); auto. apply IH; auto. apply kid_lt in Hj. lia.
Qed.
Lemma U_under k a : (k < n)%nat -> net_under kids k a -> (a < na)%nat -> u a <> None -> U k <> None.
Proof.
  intros Hk H Ha Hu. induction H as [k|k j al a Hj H IH]; [ now rewrite U_alt_net | ].
  apply (U_fin_parent k j al); auto. apply IH; auto. apply kid_lt in Hj. lia.
Qed.
Lemma U_fin_under k : (k < n)%nat -> (U k <> None <-> exists a, (a < na)%nat /\ net_under kids k a /\ u a <> None).
Proof.
  intros Hk. split; [ | intros (a & Ha & Hu & Hf); now apply (U_under k a) ].
  induction k as [k IH] using lt_wf_ind. intros Hf. destruct (Nat.lt_ge_cases k na) as [Hlt|Hge].
  - exists k. rewrite U_alt_net in Hf by auto. repeat split; auto. constructor.
  - apply U_fin in Hf as (j & al & Hj & Hf); [ | lia ]. assert (Hlt := kid_lt _ _ _ Hj).
    destruct (IH j Hlt ltac:(lia) Hf) as (a & Ha & Hu & Hfa). exists a. repeat split; auto. econstructor; eauto.
Qed.

(** ---------- conditional probabilities ---------- *)
Notation cnd e := (ocexp (edge_cond mu U e)).
Lemma cnd_share k ja : (k < n)%nat -> In ja (kids k) -> U k <> None -> cnd (mk k ja) = share (mu k) U (kids k) ja.
Proof.
  destruct ja as [j al]. intros Hk Hj Hf. assert (Hna := kid_nest _ _ _ Hj). assert (Hal := kid_al _ _ _ Hj).
  destruct (U_val k (conj Hna Hk) Hf) as [Hp E]. assert (Hm := Hmu k (conj Hna Hk)).
  unfold edge_cond, share, term, mk, e_up, e_dn, e_al. cbn [fst snd]. rewrite E. destruct (U j) as [x|] eqn:Ej; [ | cbn; unfold Rdiv; lra ].
  cbn [ocexp]. set (S0 := nest_sum (mu k) U (kids k)) in *.
  assert (Hl : (if Req_EM_T al 1 then 0 else ln al / mu k) = ln al / mu k).
  { destruct (Req_EM_T al 1) as [ ->|]; auto. rewrite ln_1. unfold Rdiv. lra. }
  rewrite Hl. replace ((x - mu k * ln S0) / mu k + ln al / mu k) with ((ln al + x) / mu k + - ln S0) by (field; lra).
  rewrite exp_plus, exp_Ropp, exp_ln by auto. auto.
Qed.
Lemma cnd_none k ja : U k = None -> cnd (mk k ja) = 0.
Proof. intros E. unfold edge_cond, mk, e_up. cbn [fst snd]. now rewrite E. Qed.
Lemma cnd_child_none k ja : U (fst ja) = None -> cnd (mk k ja) = 0.
Proof. intros E. unfold edge_cond, mk, e_up, e_dn. cbn [fst snd]. rewrite E. now destruct (U k). Qed.
Lemma cnd_nonneg e : 0 <= cnd e.
Proof. unfold ocexp. destruct (edge_cond mu U e); [ left; apply exp_pos | lra ]. Qed.
Lemma share_sum k : (na <= k < n)%nat -> U k <> None -> Rsum (share (mu k) U (kids k)) (kids k) = 1.
Proof.
  intros Hk Hf. destruct (U_val k Hk Hf) as [Hp _]. unfold share, Rdiv. rewrite Rsum_scal_r. fold (nest_sum (mu k) U (kids k)).
  field. lra.
Qed.

(** ---------- total probabilities ---------- *)
Notation P := (net_probabilities w mu U).
Lemma net_P_rec c : P c = (if (c =? n - 1)%nat then 1 else 0) + over_parents w kids c (fun k ja => cnd (mk k ja) * P k).
Proof.
  assert (E : P = fold_left (fun M e => upd M (e_dn e) (M (e_dn e) + cnd e * M (e_up e))) (rev (w_edges w)) (upd (fun _ => 0) (n - 1) 1)).
  { unfold net_probabilities. f_equal. apply functional_extensionality. intros M. apply functional_extensionality. intros e.
    unfold tot_step. destruct (Req_EM_T (M (e_up e)) 0) as [E0|]; auto. rewrite E0. symmetry. apply upd_id. lra. }
  pose proof (fold_acc e_dn e_up (fun e x => cnd e * x) (rev (w_edges w)) rev_order_net (upd (fun _ => 0) (n - 1) 1)) as H.
  cbn beta zeta in H. rewrite <- E in H. rewrite H. unfold upd. f_equal.
  rewrite (Rsum_perm _ (rev (w_edges w)) (w_edges w)) by (symmetry; apply Permutation_rev).
  rewrite sum_edges. unfold over_parents. apply Rsum_ext. intros k _. apply Rsum_ext. intros ja _. auto.
Qed.
Lemma net_P_root : P (n - 1) = 1.
Proof.
  rewrite net_P_rec, Nat.eqb_refl. unfold over_parents. rewrite Rsum_zero; [ lra | ]. intros k Hk. apply in_seq in Hk.
  apply Rsum_zero. intros [j a] Hj. cbn [fst]. apply kid_lt in Hj. destruct (Nat.eqb_spec j (n - 1)); auto. lia.
Qed.
Lemma net_P_node c : (c < n - 1)%nat -> P c = over_parents w kids c (fun k ja => cnd (mk k ja) * P k).
Proof. intros Hc. rewrite net_P_rec. destruct (Nat.eqb_spec c (n - 1)); [ lia | lra ]. Qed.
Lemma net_P_nonneg c : (c < n)%nat -> 0 <= P c.
Proof.
  remember (n - c)%nat as d eqn:Hd. revert c Hd. induction d as [d IH] using lt_wf_ind. intros c Hd Hc.
  destruct (Nat.eq_dec c (n - 1)) as [ ->|Hne]; [ rewrite net_P_root; lra | ]. rewrite net_P_node by lia. unfold over_parents.
  apply Rsum_nonneg. intros k Hk. apply in_seq in Hk. apply Rsum_nonneg. intros [j a] Hj. cbn [fst]. apply kid_lt in Hj.
  destruct (Nat.eqb_spec j c) as [ ->|]; [ | lra ]. apply Rmult_le_pos; [ apply cnd_nonneg | ]. apply (IH (n - k)%nat); lia.
Qed.
Lemma net_P_none c : (c < n - 1)%nat -> U c = None -> P c = 0.
Proof.
  intros Hc E. rewrite net_P_node by auto. unfold over_parents. apply Rsum_zero. intros k _. apply Rsum_zero. intros ja _.
  destruct (Nat.eqb_spec (fst ja) c) as [Ej|]; auto. rewrite cnd_child_none by congruence. lra.
Qed.
Lemma net_P_sum : U (n - 1)%nat <> None -> Rsum P (seq 0 na) = 1.
Proof.
  intros Hf. assert (Hr := nd_root _ _ T).
  assert (E : Rsum P (seq 0 (n - 1)) = Rsum P (seq na (n - na))).
  { rewrite (Rsum_ext P (fun c => over_parents w kids c (fun k ja => cnd (mk k ja) * P k)) (seq 0 (n - 1))).
    2:{ intros c Hc. apply in_seq in Hc. apply net_P_node. lia. }
    rewrite sum_children. replace n with (na + (n - na))%nat at 1 by lia. rewrite seq_app, Rsum_app.
    rewrite (Rsum_zero _ (seq 0 na)); [ | intros k Hk; apply in_seq in Hk; now rewrite (nd_leaf _ _ T) by lia ].
    rewrite Rplus_0_l. apply Rsum_ext. intros k Hk. apply in_seq in Hk. rewrite Rsum_scal_r.
    destruct (U k) as [x|] eqn:Ek.
    - rewrite (Rsum_ext _ (share (mu k) U (kids k))); [ rewrite share_sum; [ lra | lia | congruence ] | ].
      intros ja Hj. apply cnd_share; [ lia | auto | congruence ].
    - assert (Hne : k <> (n - 1)%nat) by (intros ->; congruence). rewrite (net_P_none k) by (auto; lia). lra. }
  replace (n - 1)%nat with (na + (n - 1 - na))%nat in E by lia. rewrite seq_app, Rsum_app in E.
  replace (n - na)%nat with ((n - 1 - na) + 1)%nat in E by lia. rewrite seq_app, Rsum_app in E.
  replace (0 + na)%nat with na in E by lia. replace (na + (n - 1 - na))%nat with (n - 1)%nat in E by lia.
  cbn [seq Rsum fold_right] in E. fold (Rsum P (seq 0 na)) in E. fold (Rsum P (seq na (n - 1 - na))) in E. rewrite net_P_root in E. lra.
Qed.
(** An available node with a way up has a positive probability. *)
Lemma net_P_pos c : (c < n)%nat -> U c <> None -> net_under kids (n - 1) c -> 0 < P c.
Proof.
  intros Hc Hf Hu. assert (Hr := nd_root _ _ T).
  assert (G : forall k a, net_under kids k a -> (k < n)%nat -> 0 < P k -> U a <> None -> 0 < P a).
  { induction 1 as [k|k j al a Hj H IH]; auto. intros Hk Hp Hua. assert (Hjk := kid_lt _ _ _ Hj).
    assert (Huj : U j <> None) by (apply (U_above j a); auto; lia).
    apply IH; auto; [ lia | ].
    rewrite net_P_node by lia. unfold over_parents. apply (Rsum_pos _ _ k).
    - intros k' Hk'. apply in_seq in Hk'. apply Rsum_nonneg. intros ja _. destruct (fst ja =? j)%nat; [ | lra ].
      apply Rmult_le_pos; [ apply cnd_nonneg | apply net_P_nonneg; lia ].
    - apply in_seq; lia.
    - apply (Rsum_pos _ _ (j, al)); auto.
      + intros ja _. destruct (fst ja =? j)%nat; [ | lra ]. apply Rmult_le_pos; [ apply cnd_nonneg | lra ].
      + cbn [fst]. rewrite Nat.eqb_refl. apply Rmult_lt_0_compat; auto.
        assert (Huk := U_fin_parent k j al Hk Hj Huj). unfold edge_cond, mk, e_up, e_dn. cbn [fst snd].
        destruct (U k); [ | congruence ]. destruct (U j); [ | congruence ]. cbn [ocexp]. apply exp_pos. }
  apply (G (n - 1)%nat c Hu); auto; [ lia | rewrite net_P_root; lra ].
Qed.
End Net.
