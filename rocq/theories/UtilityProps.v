(** Properties C11, C12, C13 and the part of C07 that goes from data to gradient. *)
From Coq Require Import FunctionalExtensionality.
From Coquelicot Require Import Coquelicot.
From Verif Require Import UtilityProofs LogitDeriv LogitProps LogitExProps.

(** ---------------------------------------------------------------- derivatives of the SPEC formulas *)
Lemma upd_id (f : nat -> R) k : upd f k (f k) = f.
Proof. apply upd_same. auto. Qed.
Lemma d_coord par p i : is_derive (fun t => upd par p t i) (par p) (if (i =? p)%nat then 1 else 0).
Proof. unfold upd. destruct (i =? p)%nat; [apply @is_derive_id|apply @is_derive_const]. Qed.
Lemma d_scal (c : R) f x df : is_derive f x df -> is_derive (fun t => c * f t) x (c * df).
Proof. intros H. eapply d_eq; [apply (d_mult (fun _ => c) f x 0 df (d_const c x) H)|]. ring. Qed.
Lemma d_plus (f g : R -> R) x df dg : is_derive f x df -> is_derive g x dg -> is_derive (fun t => f t + g t) x (df + dg).
Proof. intros. apply @is_derive_plus; auto. Qed.
Lemma d_linear_ca terms x par p :
  is_derive (fun t => linear_ca terms x (upd par p t)) (par p) (coef_ca terms x p).
Proof.
  unfold linear_ca, coef_ca. apply (is_derive_Rsum (fun t0 t => t_scale t0 * x (t_data t0) * upd par p t (t_par t0))).
  intros t0 _. eapply d_eq; [apply d_scal, d_coord|]. destruct (t_par t0 =? p)%nat; ring.
Qed.
Lemma d_linear_co terms a z par p :
  is_derive (fun t => linear_co terms a z (upd par p t)) (par p) (coef_co terms a z p).
Proof.
  unfold linear_co, coef_co.
  apply (is_derive_Rsum (fun t0 t => if (c_alt t0 =? a)%nat then co_value z t0 * upd par p t (c_par t0) else 0)).
  intros t0 _. destruct (c_alt t0 =? a)%nat; [|apply d_const].
  eapply d_eq; [apply d_scal, d_coord|]. destruct (c_par t0 =? p)%nat; ring.
Qed.
Lemma d_size q x par p : is_derive (fun t => size q x (upd par p t)) (par p) (qcoef par q x p).
Proof.
  unfold size, qcoef. apply (is_derive_Rsum (fun t0 t => t_scale t0 * x (t_data t0) * exp (upd par p t (t_par t0)))).
  intros t0 _. eapply d_eq; [apply d_scal, d_exp, d_coord|]. cbv beta. rewrite upd_id.
  destruct (t_par t0 =? p)%nat; ring.
Qed.
Lemma qcoef_0 par q x p : count q p = 0%nat -> qcoef par q x p = 0.
Proof.
  induction q as [|t q IH]; unfold qcoef, count in *; simpl; intros H; auto.
  destruct (t_par t =? p)%nat; [discriminate|]. rewrite IH by auto. lra.
Qed.
Lemma d_log_size hold q qs x par p : hold p = false -> 0 < size q x par -> (count q p <= 1)%nat ->
  is_derive (fun t => log_size q qs x (upd par p t)) (par p) (dq par hold q qs x p).
Proof.
  intros Hh Hs Hc. unfold log_size, dq. destruct q as [|t0 q0]; [apply d_const|]. set (q := t0 :: q0) in *.
  assert (HS := d_size q x par p).
  assert (HL : is_derive (fun t => ln (size q x (upd par p t))) (par p) (qcoef par q x p * / size q x par)).
  { eapply d_eq; [apply d_ln; [|apply HS]; rewrite upd_id; auto|]. cbv beta. rewrite upd_id. auto. }
  assert (E : qcoef par q x p * q_scale_value par qs / size q x par ^ count q p
              = q_scale_value par qs * (qcoef par q x p * / size q x par)).
  { destruct (count q p) as [|[|]] eqn:Ec; [rewrite qcoef_0 by auto|simpl|lia]; field; try (apply Rgt_not_eq; auto). }
  rewrite Hh. unfold q_scale_value in *. destruct qs as [s|].
  - eapply d_eq; [apply d_mult; [apply d_coord|apply HL]|]. cbv beta. rewrite !upd_id. rewrite E.
    rewrite (Nat.eqb_sym p s). destruct (Nat.eqb_spec s p) as [ ->|Hne]; [rewrite Hh; ring|destruct (hold s); ring].
  - eapply d_eq; [apply d_scal, HL|]. rewrite E. ring.
Qed.
Lemma d_total hold q qs ca co a x z par p : hold p = false -> (q <> [] -> 0 < size q x par) -> (count q p <= 1)%nat ->
  is_derive (fun t => total_utility q qs ca co a x z (upd par p t)) (par p)
    (dq par hold q qs x p + (if hold p then 0 else coef_ca ca x p + coef_co co a z p)).
Proof.
  intros Hh Hs Hc. unfold total_utility. rewrite Hh. rewrite <- Rplus_assoc.
  apply d_plus; [apply d_plus|]; [|apply d_linear_ca|apply d_linear_co].
  destruct q as [|t q]; [unfold log_size, dq; apply d_const|apply d_log_size; auto; apply Hs; discriminate].
Qed.

(** ---------------------------------------------------------------- C11 *)
(** Utility and reported derivatives of every alternative, from idca and idco terms. *)
Theorem C11_utility_is_linear :
  forall par hold na ca co av (x : nat -> nat -> R) z a, (a < na)%nat ->
  fst (utilities par hold na [] None ca co av (Dense x) z) a =
    (if av a then Some (linear_ca ca (x a) par + linear_co co a z par) else None).
Proof.
  intros par hold na ca co av x z a Ha.
  destruct (utilities_closed par hold na [] None ca co av (Dense x) z) with (a := a) as [H _]; simpl; auto.
  - intros Hn. congruence.
  - destruct (av a); split; congruence.
  - rewrite H. simpl. destruct (av a); auto. unfold total_utility, log_size. f_equal. ring.
Qed.
Theorem C11_reported_derivative :
  forall par hold na ca co av (x : nat -> nat -> R) z a p, (a < na)%nat ->
  snd (utilities par hold na [] None ca co av (Dense x) z) a p =
    (if av a then if hold p then 0 else coef_ca ca (x a) p + coef_co co a z p else 0).
Proof.
  intros par hold na ca co av x z a p Ha.
  destruct (utilities_closed par hold na [] None ca co av (Dense x) z) with (a := a) as [_ H]; simpl; auto.
  - intros Hn. congruence.
  - destruct (av a); split; congruence.
  - rewrite H. simpl. destruct (av a); auto. rewrite Rplus_0_l. auto.
Qed.
(** The reported derivative of a free parameter is the derivative. *)
Theorem C11_derivative_is_derivative :
  forall par hold na ca co av (x : nat -> nat -> R) z a p, (a < na)%nat -> av a = true -> hold p = false ->
  is_derive (fun t => val (fst (utilities (upd par p t) hold na [] None ca co av (Dense x) z) a)) (par p)
    (snd (utilities par hold na [] None ca co av (Dense x) z) a p).
Proof.
  intros par hold na ca co av x z a p Ha Hav Hh. rewrite C11_reported_derivative, Hav, Hh by auto.
  eapply is_derive_ext; [intros t; symmetry; rewrite C11_utility_is_linear, Hav by auto; reflexivity|].
  cbn [val]. apply d_plus; [apply d_linear_ca|apply d_linear_co].
Qed.
(** Two idca terms share parameter 0, one idco constant on alternative 1; alternative 2
    unavailable; parameter 1 held. *)
Example C11_case :
  let par := fun p => if (p =? 0)%nat then 2 else 5 in
  let hold := fun p => (p =? 1)%nat in
  let ca := [mkTerm 1 0 0; mkTerm 3 0 1] in
  let co := [mkCo 1 1 1 None] in
  let av := fun a => negb (a =? 2)%nat in
  let x := fun (a d : nat) => INR (a + d) in
  let r := utilities par hold 3 [] None ca co av (Dense x) (fun _ => 0) in
  fst r 1%nat = Some (2 * 1 + 3 * 2 * 2 + 5) /\ fst r 2%nat = None /\ snd r 1%nat 0%nat = 7 /\ snd r 1%nat 1%nat = 0.
Proof.
  cbv zeta. rewrite !C11_utility_is_linear, !C11_reported_derivative by lia. simpl.
  unfold linear_ca, linear_co, coef_ca, coef_co, co_value. simpl. repeat split; f_equal; lra.
Qed.

(** ---------------------------------------------------------------- C12 *)
Lemma lookup_in rows : forall lo na a x, sorted_rows lo na rows -> In (a, x) rows -> lookup rows a = Some x.
Proof.
  induction rows as [|r rows IH]; simpl; intros lo na a x Hs Hi; [easy|]. destruct Hs as [H1 H2].
  destruct Hi as [ ->|Hi]; [simpl; rewrite Nat.eqb_refl; auto|].
  assert (El := IH _ _ _ _ H2 Hi). destruct (Nat.eqb_spec (fst r) a) as [Ha|]; auto.
  rewrite (lookup_low rows (S (fst r)) na a) in El by (auto; lia). discriminate.
Qed.
Lemma lookup_some rows a x : lookup rows a = Some x -> In (a, x) rows.
Proof.
  induction rows as [|[i y] rows IH]; simpl; [easy|]. destruct (Nat.eqb_spec i a) as [ ->|]; [|right; auto].
  intros [= <-]. auto.
Qed.
(** The case's sparse rows are exactly the data rows of its available alternatives. *)
Definition same_data (na : nat) (av : nat -> bool) (x : nat -> nat -> R) (rows : list (nat * (nat -> R))) : Prop :=
  forall a y, In (a, y) rows <-> (a < na)%nat /\ av a = true /\ y = x a.
Lemma same_lookup na av x rows : sorted_rows 0 na rows -> same_data na av x rows ->
  forall a, (a < na)%nat -> lookup rows a = if av a then Some (x a) else None.
Proof.
  intros Hs Hd a Ha. destruct (av a) eqn:Ea.
  - eapply lookup_in; eauto. apply Hd. auto.
  - destruct (lookup rows a) eqn:El; auto. apply lookup_some in El. apply Hd in El. destruct El as [_ [El _]]. congruence.
Qed.
Lemma outside par hold na q qs ca co av data z : data_ok na data ->
  (forall a y, row_of av data a = Some y -> (a < na)%nat -> q <> [] -> size q y par <> 0) ->
  (forall a, (na <= a)%nat -> (match data with Sparse rows => lookup rows a | Dense _ => None end) = None) ->
  forall a, (na <= a)%nat ->
  fst (utilities par hold na q qs ca co av data z) a
    = (if av a then Some (0 + linear_co co a z par) else Some 0) /\
  forall p, snd (utilities par hold na q qs ca co av data z) a p
    = 0 + (if av a then if hold p then 0 else coef_co co a z p else 0).
Proof.
  intros Hok Hs Hl a Ha. unfold utilities.
  assert (Q : fst (quantity_from_data_ca par hold na q qs av data (fun _ => Some 0, fun _ _ => 0)) a = Some 0 /\
              snd (quantity_from_data_ca par hold na q qs av data (fun _ => Some 0, fun _ _ => 0)) a = fun _ => 0).
  { set (ok := fun (j : nat) (x : nat -> R) (u : option R) => q <> [] -> val (oplus u (size q x par)) <> 0).
    unfold quantity_from_data_ca. destruct data as [dca|rows].
    - apply (dense_out (fun j x u => gU_q par q qs x u) (fun j x u d => gD_q par hold q qs x u d) ok
        (fun j x => q_alt par hold q qs j x)); auto.
      + intros j x U D Hk. apply q_alt_row. exact Hk.
      + intros j Hj Haj Hq. simpl. rewrite Rplus_0_l. apply (Hs j); auto. simpl. rewrite Haj. auto.
    - apply (sparse_out (fun j x u => gU_q par q qs x u) (fun j x u d => gD_q par hold q qs x u d) ok
        (fun j x => q_alt par hold q qs j x)); auto.
      + intros j x U D Hk. apply q_alt_row. exact Hk.
      + intros j y Hj Hq. simpl. rewrite Rplus_0_l. apply (Hs j); auto.
        destruct (Nat.lt_ge_cases j na); auto. rewrite Hl in Hj by auto. discriminate. }
  destruct (quantity_from_data_ca _ _ _ _ _ _ _ _) as [Uq Dq]. simpl in Q. destruct Q as [Q1 Q2].
  assert (C : fst (utility_from_data_ca par hold na ca av data (Uq, Dq)) a = Uq a /\
              snd (utility_from_data_ca par hold na ca av data (Uq, Dq)) a = Dq a).
  { unfold utility_from_data_ca. destruct data as [dca|rows].
    - apply (dense_out (fun j x u => oplus u (linear_ca ca x par)) (fun j x u d => gD_ca hold ca x d) (fun _ _ _ => True)
        (fun j x => ca_alt par hold ca j x)); auto. intros j x U D _. apply ca_alt_row.
    - apply (sparse_out (fun j x u => oplus u (linear_ca ca x par)) (fun j x u d => gD_ca hold ca x d) (fun _ _ _ => True)
        (fun j x => ca_alt par hold ca j x)); auto. intros j x U D _. apply ca_alt_row. }
  destruct (utility_from_data_ca _ _ _ _ _ _ _) as [Uc Dc]. simpl in C. destruct C as [C1 C2].
  destruct (co_fold par hold co av z Uc Dc a) as [F1 F2]. rewrite F1, C1, Q1. split; [destruct (av a); auto|].
  intros p. rewrite F2, C2, Q2. auto.
Qed.

(** Sparse rows in order give the same utilities and derivatives as the dense array. *)
Theorem C12_sparse_equals_dense :
  forall par hold na q qs ca co av (x : nat -> nat -> R) rows z,
  sorted_rows 0 na rows -> same_data na av x rows ->
  (forall a, (a < na)%nat -> av a = true -> q <> [] -> size q (x a) par <> 0) ->
  utilities par hold na q qs ca co av (Sparse rows) z = utilities par hold na q qs ca co av (Dense x) z.
Proof.
  intros par hold na q qs ca co av x rows z Hs Hd Hz.
  assert (L := same_lookup na av x rows Hs Hd).
  assert (Lo : forall a, (na <= a)%nat -> lookup rows a = None).
  { intros a Ha. destruct (lookup rows a) eqn:El; auto. apply lookup_some in El. apply Hd in El. lia. }
  assert (S1 : size_ok par q na av (Sparse rows)).
  { intros Hq a y Hy Ha. simpl in Hy. rewrite L in Hy by auto. destruct (av a) eqn:Ea; [|discriminate].
    injection Hy as <-. auto. }
  assert (S2 : size_ok par q na av (Dense x)).
  { intros Hq a y Hy Ha. simpl in Hy. destruct (av a) eqn:Ea; [|discriminate]. injection Hy as <-. auto. }
  assert (Hs' : data_ok na (Sparse rows)) by exact Hs.
  assert (Hp : forall a, fst (utilities par hold na q qs ca co av (Sparse rows) z) a =
                         fst (utilities par hold na q qs ca co av (Dense x) z) a /\
               forall p, snd (utilities par hold na q qs ca co av (Sparse rows) z) a p =
                         snd (utilities par hold na q qs ca co av (Dense x) z) a p).
  { intros a. destruct (Nat.lt_ge_cases a na) as [Ha|Ha].
    - destruct (utilities_closed par hold na q qs ca co av (Sparse rows) z Hs' S1 a Ha) as [A1 A2].
      { simpl. rewrite L by auto. destruct (av a); split; congruence. }
      destruct (utilities_closed par hold na q qs ca co av (Dense x) z I S2 a Ha) as [B1 B2].
      { simpl. destruct (av a); split; congruence. }
      rewrite A1, B1. split; [simpl; rewrite L by auto; auto|]. intros p. rewrite A2, B2. simpl. rewrite L by auto. auto.
    - destruct (outside par hold na q qs ca co av (Sparse rows) z Hs') with (a := a) as [A1 A2]; auto.
      { intros b y Hy Hb Hq. eapply S1; eauto. }
      destruct (outside par hold na q qs ca co av (Dense x) z I) with (a := a) as [B1 B2]; auto.
      { intros b y Hy Hb Hq. eapply S2; eauto. }
      rewrite A1, B1. split; auto. intros p. rewrite A2, B2. auto. }
  rewrite (surjective_pairing (utilities _ _ _ _ _ _ _ _ (Sparse rows) _)).
  rewrite (surjective_pairing (utilities _ _ _ _ _ _ _ _ (Dense x) _)).
  f_equal; apply functional_extensionality; intros a; [apply Hp|].
  apply functional_extensionality. intros p. apply Hp.
Qed.
(** ... hence the same probabilities, log likelihood, gradient and bhhh. *)
Theorem C12_same_results :
  forall st par hold q qs ca co av (x : nat -> nat -> R) rows z ch wt lp0 P0,
  sorted_rows 0 (n_alts st) rows -> same_data (n_alts st) av x rows ->
  (forall a, (a < n_alts st)%nat -> av a = true -> q <> [] -> size q (x a) par <> 0) ->
  master st par hold q qs ca co av (Sparse rows) z ch wt lp0 P0 =
  master st par hold q qs ca co av (Dense x) z ch wt lp0 P0.
Proof. intros. unfold master. rewrite (C12_sparse_equals_dense) with (x := x); auto. Qed.
(** Alternatives 0 and 2 of three have rows. *)
Example C12_case :
  let x := fun (a d : nat) => INR (a + 1) in
  let av := fun a => negb (a =? 1)%nat in
  let rows := [(0%nat, x 0%nat); (2%nat, x 2%nat)] in
  sorted_rows 0 3 rows /\ same_data 3 av x rows /\
  (forall a, (a < 3)%nat -> av a = true -> [mkTerm 1 0 0] <> [] -> size [mkTerm 1 0 0] (x a) (fun _ => 0) <> 0).
Proof.
  cbv zeta. split; [|split].
  - simpl. lia.
  - intros a y. split.
    + intros [H|[H|[]]]; injection H as <- <-; auto.
    + intros [H1 [H2 ->]]. destruct a as [|[|[|a]]]; simpl; auto; try discriminate; try (exfalso; lia).
  - intros a Ha _ _. unfold size. simpl.
    rewrite exp_0. assert (0 < INR (a + 1)) by (apply lt_0_INR; lia). lra.
Qed.
(** Rows out of order are applied to the wrong alternative: rows (1, data 10), (0, data 20)
    leave alternative 0 at minus infinity although it has a row. *)
Theorem C12_unsorted_refuted :
  exists par hold na ca av x rows,
    same_data na av x rows /\
    fst (utilities par hold na [] None ca [] av (Dense x) (fun _ => 0)) 0%nat = Some 20 /\
    fst (utilities par hold na [] None ca [] av (Sparse rows) (fun _ => 0)) 0%nat = None.
Proof.
  set (x := fun (a d : nat) => match a with 0%nat => 20 | _ => 10 end).
  exists (fun _ => 1), (fun _ => false), 2%nat, [mkTerm 1 0 0], (fun _ => true), x, [(1%nat, x 1%nat); (0%nat, x 0%nat)].
  split; [|split].
  - intros a y. split.
    + intros [H|[H|[]]]; injection H as <- <-; auto.
    + intros [H1 [_ ->]]. destruct a as [|[|a]]; simpl; auto. lia.
  - rewrite C11_utility_is_linear by lia. unfold linear_ca, linear_co, x. simpl. f_equal. lra.
  - reflexivity.
Qed.

(** ---------------------------------------------------------------- C13 *)
(** The size contribution: utility of an available alternative is
    theta*log(sum scale*data*exp(parameter)) plus the linear part. *)
Theorem C13_size_value :
  forall par hold na q qs ca co av (x : nat -> nat -> R) z a, (a < na)%nat -> av a = true ->
  (forall b, (b < na)%nat -> av b = true -> q <> [] -> 0 < size q (x b) par) ->
  fst (utilities par hold na q qs ca co av (Dense x) z) a = Some (total_utility q qs ca co a (x a) z par).
Proof.
  intros par hold na q qs ca co av x z a Ha Hav Hs.
  destruct (utilities_closed par hold na q qs ca co av (Dense x) z) with (a := a) as [H _]; simpl; auto.
  - intros Hq b y Hy Hb. simpl in Hy. destruct (av b) eqn:Eb; [|discriminate]. injection Hy as <-. apply Rgt_not_eq. apply Hs; auto.
  - destruct (av a); split; congruence.
  - rewrite H. simpl. rewrite Hav. auto.
Qed.
(** The reported derivative is the derivative, provided that no free parameter occurs in two
    quantity terms (what is missing: that case, where it is false, see
    C13_repeated_parameter_refuted) and the size is positive. *)
Theorem C13_derivative_partial :
  forall par hold na q qs ca co av (x : nat -> nat -> R) z a p, (a < na)%nat -> av a = true -> hold p = false ->
  (q <> [] -> forall b, (b < na)%nat -> av b = true -> 0 < size q (x b) par) ->
  (count q p <= 1)%nat ->
  is_derive (fun t => total_utility q qs ca co a (x a) z (upd par p t)) (par p)
    (snd (utilities par hold na q qs ca co av (Dense x) z) a p).
Proof.
  intros par hold na q qs ca co av x z a p Ha Hav Hh Hs Hc.
  destruct (utilities_closed par hold na q qs ca co av (Dense x) z) with (a := a) as [_ H]; simpl; auto.
  - intros Hq b y Hy Hb. simpl in Hy. destruct (av b) eqn:Eb; [|discriminate]. injection Hy as <-.
    apply Rgt_not_eq. apply Hs; auto.
  - destruct (av a); split; congruence.
  - rewrite H. simpl. rewrite Hav. apply d_total; auto.
Qed.
(** Held parameters get derivative zero. *)
Theorem C13_held_derivative_zero :
  forall par hold na q qs ca co av (x : nat -> nat -> R) z a p, (a < na)%nat -> hold p = true ->
  (q <> [] -> forall b, (b < na)%nat -> av b = true -> size q (x b) par <> 0) ->
  snd (utilities par hold na q qs ca co av (Dense x) z) a p = 0.
Proof.
  intros par hold na q qs ca co av x z a p Ha Hh Hs.
  destruct (utilities_closed par hold na q qs ca co av (Dense x) z) with (a := a) as [_ H]; simpl; auto.
  - intros Hq b y Hy Hb. simpl in Hy. destruct (av b) eqn:Eb; [|discriminate]. injection Hy as <-. auto.
  - destruct (av a); split; congruence.
  - rewrite H. simpl. destruct (av a); auto. rewrite Hh. unfold dq. destruct q; [lra|]. rewrite Hh.
    destruct qs as [s|]; [|lra]. destruct (hold s) eqn:Es; [lra|].
    destruct (Nat.eqb_spec p s) as [ ->|]; [congruence|lra].
Qed.
(** Parameter 0 in two quantity terms of data 1: size 2, utility ln 2 + par, so the
    derivative is 1, but the code divides by the size twice and reports 1/2. *)
Theorem C13_repeated_parameter_refuted :
  exists par hold na q qs av x,
    (forall b, (b < na)%nat -> 0 < size q (x b) par) /\ av 0%nat = true /\ hold 0%nat = false /\ (0 < na)%nat /\
    is_derive (fun t => val (fst (utilities (upd par 0 t) hold na q qs [] [] av (Dense x) (fun _ => 0)) 0%nat)) (par 0%nat) 1 /\
    snd (utilities par hold na q qs [] [] av (Dense x) (fun _ => 0)) 0%nat 0%nat = / 2.
Proof.
  set (q := [mkTerm 1 0 0; mkTerm 1 0 0]). set (x := fun a d : nat => 1). set (hold := fun _ : nat => false).
  set (av := fun _ : nat => true).
  exists (fun _ => 0), hold, 1%nat, q, None, av, x.
  assert (Hsz : forall par b, size q (x b) par = 2 * exp (par 0%nat)).
  { intros. unfold size, q, x. simpl. ring. }
  assert (Hp : forall par b, 0 < size q (x b) par).
  { intros. rewrite Hsz. pose proof (exp_pos (par 0%nat)). lra. }
  split; [auto|]. split; [auto|]. split; [auto|]. split; [auto|]. split.
  - eapply is_derive_ext with (f := fun t => ln 2 + t).
    { intros t. rewrite C13_size_value; auto.
      cbn [val]. unfold total_utility. cbn [log_size q]. fold q. rewrite Hsz, upd_eq.
      rewrite ln_mult by (try lra; apply exp_pos). rewrite ln_exp. unfold linear_ca, linear_co. simpl. ring. }
    eapply d_eq; [apply d_plus; [apply d_const|apply @is_derive_id]|]. unfold one. simpl. ring.
  - destruct (utilities_closed (fun _ => 0) hold 1 q None [] [] av (Dense x) (fun _ => 0)) with (a := 0%nat) as [_ H]; [exact I| |lia| |].
    + intros _ a y Hy _. unfold row_of, av in Hy. injection Hy as <-. apply Rgt_not_eq, Hp.
    + unfold row_of, av. split; [discriminate|auto].
    + rewrite H. cbn [row_of av]. unfold dq. cbn [q]. fold q. unfold hold. rewrite Hsz.
      unfold qcoef, q, x, coef_ca, coef_co, count. simpl. rewrite exp_0. lra.
Qed.
(** Two quantity terms with distinct parameters and a scale parameter meet the hypotheses. *)
Example C13_case :
  let q := [mkTerm 1 0 0; mkTerm 2 1 1] in
  let x := fun a d : nat => INR (S a) in
  forall p, (count q p <= 1)%nat /\ forall b, (b < 3)%nat -> 0 < size q (x b) (fun _ => 0).
Proof.
  cbv zeta. intros p. split.
  - destruct p as [|[|p]]; unfold count; simpl; lia.
  - intros b _. unfold size. cbn [Rsum fold_right t_scale t_data t_par]. rewrite exp_0.
    assert (0 < INR (S b)) by (apply lt_0_INR; lia). lra.
Qed.

(** ---------------------------------------------------------------- C07, from the data *)
(** Size terms that can never vanish: non-negative, not all zero. *)
Definition size_positive (q : list term) (x : nat -> R) : Prop :=
  (forall t, In t q -> 0 <= t_scale t * x (t_data t)) /\
  (q <> [] -> exists t, In t q /\ 0 < t_scale t * x (t_data t)).
Lemma size_pos q x par : size_positive q x -> q <> [] -> 0 < size q x par.
Proof.
  intros [H1 H2] Hq. destruct (H2 Hq) as [t0 [Hi H0]]. clear H2 Hq. unfold size.
  assert (Hn : forall l, (forall t, In t l -> 0 <= t_scale t * x (t_data t)) ->
     0 <= Rsum (fun t => t_scale t * x (t_data t) * exp (par (t_par t))) l).
  { induction l as [|t l IH]; simpl; intros H; [lra|].
    assert (0 <= t_scale t * x (t_data t)) by auto.
    assert (0 <= t_scale t * x (t_data t) * exp (par (t_par t))) by (apply Rmult_le_pos; auto; apply Rlt_le, exp_pos).
    assert (Hx := IH (fun t H' => H t (or_intror H'))). lra. }
  induction q as [|t q IH]; [easy|]. simpl. destruct Hi as [ ->|Hi].
  - assert (0 < t_scale t0 * x (t_data t0) * exp (par (t_par t0))) by (apply Rmult_lt_0_compat; auto; apply exp_pos).
    assert (Hx := Hn q (fun t H' => H1 t (or_intror H'))). lra.
  - assert (0 <= t_scale t * x (t_data t)) by (apply H1; simpl; auto).
    assert (0 <= t_scale t * x (t_data t) * exp (par (t_par t))) by (apply Rmult_le_pos; auto; apply Rlt_le, exp_pos).
    assert (Hx := IH (fun t H' => H1 t (or_intror H')) Hi). lra.
Qed.
Lemma loglike_du st par u du du' av ch wt lp0 P0 :
  r_loglike (run_case st par u du av ch wt lp0 P0) = r_loglike (run_case st par u du' av ch wt lp0 P0).
Proof.
  unfold run_case. destruct (logprob_loop _ _ _ _ _ _) as [lp ll].
  destruct (dll_loop _ _ _ _ _) as [d1 b1] eqn:E1. destruct (dll_loop st _ _ _ (dprob_loop _ _ _ _ _ _ (dutility_loop _ _ _ _ _ (fun k p => if (k <? n_alts st)%nat then du' k p else 0)))) as [d2 b2].
  reflexivity.
Qed.
(** A parameter used in some utility term. *)
Definition used q qs ca co (p : nat) : Prop :=
  (exists t, In t q /\ t_par t = p) \/ qs = Some p \/ (exists t, In t ca /\ t_par t = p) \/ (exists t, In t co /\ c_par t = p).
Lemma unused_coef par hold q qs ca co a x z p : ~ used q qs ca co p ->
  dq par hold q qs x p = 0 /\ coef_ca ca x p = 0 /\ coef_co co a z p = 0.
Proof.
  intros Hu. assert (H1 : forall t, In t q -> t_par t <> p) by (intros t Ht E; apply Hu; left; eauto).
  assert (H2 : qs <> Some p) by (intros E; apply Hu; right; left; auto).
  assert (H3 : forall t, In t ca -> t_par t <> p) by (intros t Ht E; apply Hu; right; right; left; eauto).
  assert (H4 : forall t, In t co -> c_par t <> p) by (intros t Ht E; apply Hu; right; right; right; eauto).
  clear Hu. split; [|split].
  - assert (E : qcoef par q x p = 0).
    { unfold qcoef. clear -H1. induction q as [|t q IH]; simpl; auto. rewrite IH by (intros; apply H1; simpl; auto).
      destruct (Nat.eqb_spec (t_par t) p) as [e|]; [exfalso; apply (H1 t); simpl; auto|lra]. }
    unfold dq. destruct q; auto. rewrite E. unfold Rdiv. rewrite !Rmult_0_l.
    destruct qs as [s|]; [|destruct (hold p); lra]. destruct (Nat.eqb_spec p s); [congruence|]. destruct (hold p), (hold s); lra.
  - unfold coef_ca. clear -H3. induction ca as [|t q IH]; simpl; auto. rewrite IH by (intros; apply H3; simpl; auto).
    destruct (Nat.eqb_spec (t_par t) p) as [e|]; [exfalso; apply (H3 t); simpl; auto|lra].
  - unfold coef_co. clear -H4. induction co as [|t q IH]; simpl; auto. rewrite IH by (intros; apply H4; simpl; auto).
    destruct (Nat.eqb_spec (c_par t) p) as [e|]; [exfalso; apply (H4 t); simpl; auto|destruct (c_alt t =? a)%nat; lra].
Qed.

(** From data to gradient: for a nested logit with any tree, linear-in-parameters idca and
    idco utilities and a size term, the reported gradient is the derivative of the reported
    log likelihood for every parameter that is free.  Missing for the full property: the
    situations excluded by the last eight hypotheses (a logsum parameter on the root, one
    shared by nests in line or used in a utility, a quantity parameter used twice, a chosen
    probability under 1e-250). *)
Theorem C07_from_data_partial :
  forall st kids par hold q qs ca co av (x : nat -> nat -> R) z ch wt lp0 P0 p,
  tree_slots st kids -> mu_positive st par -> hold p = false ->
  (forall a, (a < n_alts st)%nat -> av a = true -> size_positive q (x a)) ->
  (count q p <= 1)%nat ->
  mu_slots st (n_nodes st - 1 - n_alts st) = None ->
  (forall k s, (n_alts st <= k < n_nodes st)%nat -> mu_slots st (k - n_alts st) = Some s ->
     ~ used q qs ca co s /\
     forall j, (n_alts st <= j)%nat -> under kids k j -> j <> k -> mu_slots st (j - n_alts st) <> Some s) ->
  (forall a, (a < n_alts st)%nat -> 0 <= ch a) ->
  (forall a, (a < n_alts st)%nat -> ch a <> 0 -> av a = true) ->
  let run par := master st par hold q qs ca co av (Dense x) z ch wt lp0 P0 in
  (forall a, (a < n_alts st)%nat -> ch a <> 0 -> / 10 ^ 250 <= r_prob (run par) a) ->
  is_derive (fun t => val (r_loglike (run (upd par p t)))) (par p) (r_dloglike (run par) p).
Proof.
  intros st kids par hold q qs ca co av x z ch wt lp0 P0 p T Hm Hh Hs Hc Hr Hmu Hch Hca run Hcl.
  set (uf := fun par => fst (utilities par hold (n_alts st) q qs ca co av (Dense x) z)).
  set (du := snd (utilities par hold (n_alts st) q qs ca co av (Dense x) z)).
  assert (Hz : forall par b, (b < n_alts st)%nat -> av b = true -> q <> [] -> size q (x b) par <> 0).
  { intros par' b Hb Hav Hq. apply Rgt_not_eq. apply size_pos; auto. }
  assert (Hcl' : forall par a, (a < n_alts st)%nat ->
    uf par a = (if av a then Some (total_utility q qs ca co a (x a) z par) else None)).
  { intros par' a Ha. destruct (av a) eqn:Ea; [apply C13_size_value; auto; intros; apply size_pos; auto|].
    destruct (utilities_closed par' hold (n_alts st) q qs ca co av (Dense x) z) with (a := a) as [H _]; simpl; auto.
    - intros Hq b y Hy Hb. simpl in Hy. destruct (av b) eqn:Eb; [|discriminate]. injection Hy as <-. auto.
    - destruct (av a); split; congruence.
    - unfold uf. rewrite H. simpl. rewrite Ea. auto. }
  eapply is_derive_ext with (f := fun t => val (r_loglike (run_case st (upd par p t) (uf (upd par p t)) du av ch wt lp0 P0))).
  { intros t. unfold run, master. f_equal. apply loglike_du. }
  apply (C07_gradient_partial st kids uf par av du p lp0 P0 ch wt); auto.
  - intros t a Ha. rewrite Hcl' by auto. unfold finite. destruct (av a); split; congruence.
  - intros a Ha Hav. eapply is_derive_ext; [intros t; symmetry; rewrite Hcl', Hav by auto; reflexivity|].
    cbn [val]. apply C13_derivative_partial; auto. intros Hq b Hb Hab. apply size_pos; auto.
  - intros k s j Hk Hks Hu Hj. destruct (Hmu k s Hk Hks) as [M1 M2]. split.
    + intros Hjn. apply M2; auto.
    + intros Hjn Haj. unfold du.
      destruct (utilities_closed par hold (n_alts st) q qs ca co av (Dense x) z) with (a := j) as [_ H]; simpl; auto.
      * intros Hq b y Hy Hb. simpl in Hy. destruct (av b) eqn:Eb; [|discriminate]. injection Hy as <-. auto.
      * destruct (av j); split; congruence.
      * rewrite H. simpl. rewrite Haj. destruct (unused_coef par hold q qs ca co j (x j) z s M1) as [ -> [ -> ->]].
        destruct (hold s); lra.
Qed.

(** A held parameter that is not a logsum parameter gets gradient zero. *)
Lemma fold_inv {A B} (Pr : A -> Prop) (f : A -> B -> A) l : forall a, Pr a -> (forall a b, Pr a -> Pr (f a b)) -> Pr (fold_left f l a).
Proof. induction l; simpl; auto. Qed.
Theorem C07_held_gradient_zero :
  forall st par hold q qs ca co av (x : nat -> nat -> R) z ch wt lp0 P0 p,
  hold p = true ->
  (forall k, mu_slots st k <> Some p) ->
  (q <> [] -> forall b, (b < n_alts st)%nat -> av b = true -> size q (x b) par <> 0) ->
  r_dloglike (master st par hold q qs ca co av (Dense x) z ch wt lp0 P0) p = 0.
Proof.
  intros st par hold q qs ca co av x z ch wt lp0 P0 p Hh Hmu Hs. unfold master, run_case.
  set (u := fst _). set (du := snd _).
  assert (Hd : forall a, (a < n_alts st)%nat -> du a p = 0) by (intros; apply C13_held_derivative_zero; auto).
  destruct (logprob_loop _ _ _ _ _ _) as [lp ll].
  set (U := node_utilities _ _ _). set (cp := cond_prob _ _). set (P := probabilities _ _ _ _).
  set (D := dutility_loop _ _ _ _ _ _).
  assert (HD : forall k, D k p = 0).
  { unfold D, dutility_loop. apply (fold_inv (fun D => forall k, D k p = 0)).
    - intros k. destruct (Nat.ltb_spec k (n_alts st)); auto.
    - intros D' [up dn] HD' k. unfold dutil_step. destruct (array_av_cascade st av dn); auto.
      assert (H1 : forall k, addmu st par U D' dn k p = 0).
      { intros k'. unfold addmu. destruct (n_alts st <=? dn)%nat; auto.
        destruct (mu_slots st (dn - n_alts st)) as [s|] eqn:Es; auto.
        unfold upd. destruct (k' =? dn)%nat; auto. destruct (Nat.eqb_spec p s) as [ ->|]; auto. apply Hmu in Es. easy. }
      set (D1 := addmu _ _ _ _ _) in *.
      assert (H2 : forall k, match mu_slots st (up - n_alts st) with
              | Some s => upd D1 up (upd (D1 up) s (D1 up s - cp dn * val (U dn)))
              | None => D1 end k p = 0).
      { intros k'. destruct (mu_slots st (up - n_alts st)) as [s|] eqn:Es; auto.
        unfold upd. destruct (k' =? up)%nat; auto. destruct (Nat.eqb_spec p s) as [ ->|]; auto. apply Hmu in Es. easy. }
      unfold upd at 1. destruct (k =? up)%nat; auto. rewrite !H2. lra. }
  set (DP := dprob_loop _ _ _ _ _ _ _).
  assert (HP : forall k, DP k p = 0).
  { unfold DP, dprob_loop. apply (fold_inv (fun D => forall k, D k p = 0)); auto.
    intros D' [up dn] HD' k. unfold dprob_step. destruct (Req_EM_T _ 0); auto. unfold upd. destruct (k =? dn)%nat; auto.
    rewrite !HD, !HD'. destruct (Req_EM_T (mu_of st par up) 0); [lra|].
    destruct (mu_slots st (up - n_alts st)) as [s|] eqn:Es; [|lra].
    destruct (Nat.eqb_spec p s) as [ ->|]; [apply Hmu in Es; easy|lra]. }
  assert (HL : fst (dll_loop st (array_ch_cascade st ch) P wt DP) p = 0).
  { unfold dll_loop. apply (fold_inv (fun s : (nat -> R) * (nat -> nat -> R) => fst s p = 0)); auto.
    intros [dll bh] a H. unfold dll_step. destruct (Req_EM_T _ 0); auto. destruct (Rlt_dec _ _); auto.
    simpl in *. rewrite H, HP. unfold Rdiv. lra. }
  destruct (dll_loop _ _ _ _ _) as [dll bh]. exact HL.
Qed.
(** The hypotheses on structure, with a nest whose logsum parameter is 0, utilities using
    parameters 1 (idca), 2 (size) and 3 (idco, held), one alternative unavailable. *)
Example C07_from_data_case :
  let q := [mkTerm 1 2 0] in let ca := [mkTerm 1 1 1; mkTerm 2 1 0] in let co := [mkCo 0 1 3 None] in
  let x := fun a d : nat => INR (a + d + 1) in
  tree_slots ex_slots ex_kids /\ mu_positive ex_slots ex_par /\
  (forall a, (a < n_alts ex_slots)%nat -> ex_av a = true -> size_positive q (x a)) /\
  (forall p, (count q p <= 1)%nat) /\
  mu_slots ex_slots (n_nodes ex_slots - 1 - n_alts ex_slots) = None /\
  (forall k s, (n_alts ex_slots <= k < n_nodes ex_slots)%nat -> mu_slots ex_slots (k - n_alts ex_slots) = Some s ->
     ~ used q None ca co s /\
     forall j, (n_alts ex_slots <= j)%nat -> under ex_kids k j -> j <> k -> mu_slots ex_slots (j - n_alts ex_slots) <> Some s).
Proof.
  cbv zeta. split; [apply ex_slots_tree|]. split; [apply ex_mu_positive|]. split; [|split; [|split; [reflexivity|]]].
  - intros a _ _. assert (0 < INR (a + 0 + 1)) by (apply lt_0_INR; lia). split.
    + intros t [ <-|[]]. cbn [t_scale t_data]. lra.
    + intros _. eexists. split; [left; reflexivity|]. cbn [t_scale t_data]. lra.
  - intros p. destruct p as [|[|[|p]]]; unfold count; simpl; lia.
  - intros k s Hk Hs. simpl in Hk. assert (k = 3 \/ k = 4)%nat as [ ->| ->] by lia; simpl in Hs; [|discriminate].
    injection Hs as <-. split.
    + intros [[t [[ <-|[]] H]]|[H|[[t [[ <-|[ <-|[]]] H]]|[t [[ <-|[]] H]]]]]; discriminate.
    + intros j Hj Hu Hne. apply (under_le ex_kids (ts_less _ _ ex_slots_tree)) in Hu. simpl in *. lia.
Qed.
