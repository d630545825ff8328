(** Theorems about the utilities of the compiled engine (C64). *)
From Coq Require Import FunctionalExtensionality.
From Coquelicot Require Import Coquelicot.
From Verif Require Import CeModel CeSpec CeProofs.
From Verif Require Export CyuProofs UtilityProps.
Open Scope list_scope. Open Scope R_scope.

(** [us] are the textbook utilities of case [c]: the total utility where there are data, minus infinity elsewhere. *)
Definition textbook_utilities (A : arrays) q qs ca co (par : nat -> R) (c n : nat) (us : nat -> option R) : Prop :=
  (forall j x, (j < n)%nat -> data_row A c j x -> us j = Some (total_utility q qs ca co j x (a_co A c) par)) /\
  (forall j, (j < n)%nat -> no_data A c j -> us j = None).
(** The total size of every alternative that has data is positive. *)
Definition positive_sizes (A : arrays) q (par : nat -> R) (c n : nat) : Prop :=
  q <> nil -> forall j x, (j < n)%nat -> data_row A c j x -> 0 < size q x par.

Lemma raw_textbook A par hold q qs ca co c n : positive_sizes A q par c n ->
  textbook_utilities A q qs ca co par c n (fst (fst (raw A par hold q qs ca co c n))).
Proof.
  intros Hs. split.
  - intros j x Hj Hx. destruct (raw_at A par hold q qs ca co c n j Hj) as (E & _). cbv zeta in E. rewrite E.
    destruct (row_usable A c j x Hx) as [Hu ->]. rewrite Hu. unfold tot, base, total_utility.
    destruct q as [|t0 q0] eqn:Eq.
    + unfold log_size. f_equal. ring.
    + rewrite <- Eq in *. destruct (Rlt_dec 0 _) as [_|N]; [f_equal; ring|]. exfalso. apply N. apply (Hs ltac:(rewrite Eq; discriminate) j); auto.
  - intros j Hj Hn. destruct (raw_at A par hold q qs ca co c n j Hj) as (E & _). cbv zeta in E. rewrite E. apply no_data_usable in Hn. now rewrite Hn.
Qed.
(** Every utility is the textbook utility of that alternative's own data, less the overflow shift. *)
Theorem C64_utility : forall A par hold q qs ca co c n, positive_sizes A q par c n ->
  exists us m, textbook_utilities A q qs ca co par c n us /\ overflow_shift n us m /\
    forall j, (j < n)%nat -> fst (fst (cy_case A par hold q qs ca co c n)) j =
      match us j with Some v => Some (v - m) | None => None end.
Proof.
  intros A par hold q qs ca co c n Hs. exists (fst (fst (raw A par hold q qs ca co c n))), (shift_amount n (fst (fst (raw A par hold q qs ca co c n)))).
  split; [now apply raw_textbook|]. split; [apply shift_spec|]. intros j Hj. unfold cy_case. rewrite onecase_raw. cbn [fst]. now rewrite guard_at.
Qed.
(** So no utility handed to the probability kernel exceeds 500. *)
Theorem C64_no_overflow : forall A k c n j v, (j < n)%nat ->
  fst (fst (d_utility_onecase A k c n)) j = Some v -> v <= 500.
Proof.
  intros A k c n j v Hj. unfold d_utility_onecase. destruct (fold_left (d_alt A k c) (seq 0 n) _) as [[U D] Q].
  destruct (fold_left (dco_step A c) (k_co k) (U, D)) as [U' D']. cbn [fst]. rewrite guard_at by auto. intros E.
  destruct (U' j) as [w|] eqn:Ej; [|discriminate]. cbn [oplus] in E. injection E as <-.
  destruct (shift_spec n U') as [[E0 H]|(H1 & _ & H2)].
  - rewrite E0. assert (B := H j w Hj Ej). lra.
  - assert (B := H2 j w Hj Ej). lra.
Qed.
(** The function without derivatives gives the same utilities and quantities, whatever was linked. *)
Theorem C64_same_utilities : forall A k c n,
  utility_onecase A k c n = (fst (fst (d_utility_onecase A k c n)), snd (d_utility_onecase A k c n)).
Proof. exact same_utilities. Qed.
(** The reported quantity is the total size (0 without quantity terms or data). *)
Theorem C64_quantity : forall A par hold q qs ca co c n j, (j < n)%nat ->
  (forall x, data_row A c j x -> snd (cy_case A par hold q qs ca co c n) j = size q x par) /\
  (no_data A c j -> snd (cy_case A par hold q qs ca co c n) j = 0).
Proof.
  intros A par hold q qs ca co c n j Hj. unfold cy_case. rewrite onecase_raw. cbn [snd].
  destruct (raw_at A par hold q qs ca co c n j Hj) as (_ & E & _). cbv zeta in E. rewrite E. split.
  - intros x Hx. destruct (row_usable A c j x Hx) as [Hu ->]. rewrite Hu. destruct q; auto.
  - intros Hn. apply no_data_usable in Hn. now rewrite Hn.
Qed.
(** The reported derivative is the derivative of the textbook utility (missing: a parameter that occurs in two
    quantity terms, where it is false, see C64_repeated_parameter_refuted). *)
Theorem C64_derivative_partial : forall A par hold q qs ca co c n j x p, (j < n)%nat -> data_row A c j x ->
  (q <> nil -> 0 < size q x par) -> hold p = false -> (count q p <= 1)%nat ->
  is_derive (fun t => total_utility q qs ca co j x (a_co A c) (upd par p t)) (par p)
    (snd (fst (cy_case A par hold q qs ca co c n)) j p).
Proof.
  intros A par hold q qs ca co c n j x p Hj Hx Hs Hh Hc. unfold cy_case. rewrite onecase_raw. cbn [fst snd].
  destruct (row_usable A c j x Hx) as [Hu ->]. destruct (raw_at A par hold q qs ca co c n j Hj) as (_ & _ & E & _). cbv zeta in E. rewrite E by auto.
  now apply d_total.
Qed.
(** A parameter that is held gets derivative zero everywhere. *)
Theorem C64_held_derivative_zero : forall A par hold q qs ca co c n j p, (j < n)%nat -> hold p = true ->
  (q <> nil -> forall x, data_row A c j x -> 0 < size q x par) ->
  snd (fst (cy_case A par hold q qs ca co c n)) j p = 0.
Proof.
  intros A par hold q qs ca co c n j p Hj Hh Hs. unfold cy_case. rewrite onecase_raw. cbn [fst snd].
  destruct (raw_at A par hold q qs ca co c n j Hj) as (_ & _ & E1 & E2). cbv zeta in E1, E2. destruct (usable A c j) eqn:Eu.
  - rewrite E1; auto.
    + rewrite Hh. unfold dq. destruct q; [lra|]. rewrite Hh. destruct qs as [s|]; [|lra]. destruct (hold s) eqn:Es; [lra|].
      destruct (Nat.eqb_spec p s) as [ ->|]; [congruence|lra].
    + intros Hq. apply Hs; auto. now apply usable_row.
  - rewrite E2, Hh by auto. destruct (a_av A c j); auto.
Qed.
(** An unavailable alternative has derivative zero. *)
Theorem C64_unavailable_derivative_zero : forall A par hold q qs ca co c n j p, (j < n)%nat -> a_av A c j = false ->
  snd (fst (cy_case A par hold q qs ca co c n)) j p = 0.
Proof.
  intros A par hold q qs ca co c n j p Hj Hav. unfold cy_case. rewrite onecase_raw. cbn [fst snd].
  destruct (raw_at A par hold q qs ca co c n j Hj) as (_ & _ & _ & E2). cbv zeta in E2. rewrite E2, Hav; auto. unfold usable. now rewrite Hav.
Qed.

(** ---------- parameter values ---------- *)
(** Reading the parameters again forgets all earlier values: nothing stale is left. *)
Theorem C64_reread : forall par hold par' hold' k, read_in par hold (read_in par' hold' k) = read_in par hold k.
Proof.
  intros. unfold read_in. cbn [k_q k_qs k_ca k_co]. rewrite !map_map. f_equal.
Qed.
(** Also after [link_to_model_parameters], and whatever the scale held when the structure was linked. *)
Theorem C64_reread_after_link : forall par hold par' hold' k,
  read_in par hold (link_to_model_parameters par' hold' k) = read_in par hold k.
Proof. intros. unfold read_in, link_to_model_parameters. cbn [k_q k_qs k_ca k_co]. rewrite !map_map. f_equal. Qed.
Theorem C64_fresh_link : forall par hold q qs ca co v v' h h',
  read_in par hold (link_structure q qs ca co v h) = read_in par hold (link_structure q qs ca co v' h').
Proof. intros. now rewrite !linked_K. Qed.

(** ---------- zero quantities ---------- *)
(** [get_zero_quantity_ca] flags an alternative exactly if it has data and all its quantity data are zero; then its
    size is zero and its utility minus infinity whatever the parameters. *)
Theorem C64_zero_quantity : forall A par0 hold0 q qs ca co v h c j, q <> nil ->
  exists b, get_zero_quantity_ca A (read_in par0 hold0 (link_structure q qs ca co v h)) c j = Some b /\
  (b = true <-> exists x, data_row A c j x /\ forall t, In t q -> x (t_data t) = 0) /\
  (b = true -> forall par hold n, (j < n)%nat -> snd (cy_case A par hold q qs ca co c n) j = 0 /\
     fst (fst (cy_case A par hold q qs ca co c n)) j = None).
Proof.
  intros A par0 hold0 q qs ca co v h c j Hq. rewrite linked_K. unfold get_zero_quantity_ca. cbn [K k_q].
  destruct (map (lq par0 hold0) q) as [|l0 l] eqn:El; [destruct q; [congruence|discriminate]|]. eexists. split; [reflexivity|].
  match goal with |- (?b = true <-> _) /\ _ => assert (HH : b = true <-> exists x, data_row A c j x /\ forall t, In t q -> x (t_data t) = 0) end.
  { assert (Hsome : some_quantity A (K par0 hold0 q qs ca co) c j = existsb (fun t => if Req_EM_T (xrow A c j (t_data t)) 0 then false else true) q).
    { unfold some_quantity. cbn [K k_q]. clear El Hq. unfold xrow. induction q as [|t0 r IH]; cbn; auto. f_equal; auto. }
    unfold zero_quantity. rewrite Hsome. destruct (usable A c j) eqn:Eu.
    - assert (Hav : a_av A c j = true) by (unfold usable in Eu; now apply andb_prop in Eu as [Eu _]). rewrite Hav.
      rewrite negb_true_iff. split.
      + intros E. exists (xrow A c j). split; [now apply usable_row|]. intros t Ht.
        destruct (Req_EM_T (xrow A c j (t_data t)) 0) as [|N]; auto. exfalso.
        assert (F : existsb (fun t => if Req_EM_T (xrow A c j (t_data t)) 0 then false else true) q = true).
        { apply existsb_exists. exists t. split; auto. destruct (Req_EM_T _ 0); [contradiction|auto]. }
        congruence.
      + intros (x & Hx & H0). destruct (row_usable A c j x Hx) as [_ ->]. apply not_true_is_false. intros E. apply existsb_exists in E as (t & Ht & E).
        destruct (Req_EM_T _ 0) as [|N]; [discriminate|]. now apply N, H0.
    - split; [destruct (a_av A c j); discriminate|]. intros (x & Hx & _). apply row_usable in Hx as [Hx _]. congruence. }
  split; [exact HH|]. intros Hb. apply HH in Hb as (x & Hx & H0). intros par hold n Hj.
  assert (Hz : size q x par = 0).
  { unfold size. clear -H0. induction q as [|t r IH]; [reflexivity|]. cbn [Rsum fold_right]. rewrite H0 by (now left). fold (Rsum (fun t0 => t_scale t0 * x (t_data t0) * exp (par (t_par t0))) r). rewrite IH; [ring|]. intros; apply H0; now right. }
  split; [destruct (C64_quantity A par hold q qs ca co c n j Hj) as [E _]; now rewrite (E x Hx)|].
  unfold cy_case. rewrite onecase_raw. cbn [fst]. rewrite guard_at by auto. destruct (raw_at A par hold q qs ca co c n j Hj) as (E & _). cbv zeta in E. rewrite E.
  destruct (row_usable A c j x Hx) as [Hu ->]. rewrite Hu. unfold tot, base. destruct q as [|t0 q0]; [congruence|]. rewrite Hz. destruct (Rlt_dec 0 0); [lra|auto].
Qed.
(** With quantity data that are nowhere negative and positive scales, the alternatives that are not flagged have a
    positive size, so a finite utility. *)
Theorem C64_not_flagged : forall A par0 hold0 q qs ca co v h c j x par,
  get_zero_quantity_ca A (read_in par0 hold0 (link_structure q qs ca co v h)) c j = Some false ->
  data_row A c j x -> (forall t, In t q -> 0 < t_scale t /\ 0 <= x (t_data t)) -> 0 < size q x par.
Proof.
  intros A par0 hold0 q qs ca co v h c j x par E Hx Hp.
  assert (Hq : q <> nil). { intros ->. discriminate. }
  destruct (C64_zero_quantity A par0 hold0 q qs ca co v h c j Hq) as (b & Eb & Hb & _). rewrite E in Eb. injection Eb as <-.
  apply size_pos; auto. split.
  - intros t Ht. destruct (Hp t Ht). apply Rmult_le_pos; lra.
  - intros _. assert (Hn : ~ forall t, In t q -> x (t_data t) = 0). { intros H. assert (false = true) by (apply Hb; eauto). discriminate. }
    clear -Hn Hp. induction q as [|t r IH]; [exfalso; apply Hn; intros t []|].
    destruct (Hp t (or_introl eq_refl)) as [H1 H2]. destruct H2 as [H2|H2].
    + exists t. split; [now left|]. now apply Rmult_lt_0_compat.
    + destruct IH as (t' & Ht' & H'); [intros; apply Hp; now right|intros H; apply Hn; intros t0 [ <-|Ht0]; auto|]. exists t'. split; [now right|auto].
Qed.
