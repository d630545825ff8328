(** Proofs about the compiled engine's utilities. *)
From Coq Require Import FunctionalExtensionality.
From Verif Require Export CyuSpec UtilityProofs.

Lemma val_oplus x y : x <> None -> val (oplus x y) = val x + y.
Proof. destruct x; cbn; congruence. Qed.

(** ---------- data ---------- *)
Section Data.
Variables (A : arrays) (c : nat).
(** The row read by the loops. *)
Definition xrow (j : nat) : nat -> R := fetch A c j (row_for A c j).
Lemma usable_row j : usable A c j = true -> data_row A c j (xrow j).
Proof.
  unfold usable, data_row, xrow, fetch, row_for. intros H. apply andb_prop in H as [H1 H2]. split; auto.
  destruct (a_rm A) as [[[nc na] m]|]; auto. destruct (Nat.leb_spec nc c); [discriminate|]. destruct (Nat.leb_spec na j); [discriminate|].
  cbn [orb] in *. destruct (m c j) as [i|]; [|discriminate]. repeat split; auto. exists i. auto.
Qed.
Lemma row_usable j x : data_row A c j x -> usable A c j = true /\ x = xrow j.
Proof.
  unfold usable, data_row, xrow, fetch, row_for. intros [H1 H2]. rewrite H1. destruct (a_rm A) as [[[nc na] m]|]; auto.
  destruct H2 as (L1 & L2 & i & E & ->). destruct (Nat.leb_spec nc c); [lia|]. destruct (Nat.leb_spec na j); [lia|]. cbn [orb]. rewrite E. auto.
Qed.
Lemma no_data_usable j : no_data A c j <-> usable A c j = false.
Proof.
  split.
  - intros H. apply not_true_is_false. intros E. apply usable_row in E. now apply H in E.
  - intros E x H. apply row_usable in H as [H _]. congruence.
Qed.
End Data.

(** ---------- linking ---------- *)
Section Run.
Variable A : arrays.
Variable par : nat -> R.
Variable hold : nat -> bool.
Variables (q : list term) (qs : option nat) (ca : list term) (co : list coterm).
Variable c : nat.
Definition lq (t : term) := mkL (exp (par (t_par t))) (t_scale t) (hold (t_par t)) (t_par t) (t_data t).
Definition lca (t : term) := mkL (par (t_par t)) (t_scale t) (hold (t_par t)) (t_par t) (t_data t).
Definition lco (t : coterm) := mkLC (c_alt t) (par (c_par t)) (c_scale t) (hold (c_par t)) (c_par t) (c_data t).
Definition K : linked := mkLinked (map lq q) qs (q_scale_value par qs) (match qs with Some s => hold s | None => true end) (map lca ca) (map lco co).
Lemma linked_K v h : read_in par hold (link_structure q qs ca co v h) = K.
Proof. unfold read_in, link_structure, K. cbn [k_q k_qs k_ca k_co]. rewrite !map_map. f_equal. Qed.

Notation x := (xrow A c).
Lemma dq_steps j l : forall s, fold_left (dq_step A K c j) (map lq l) s = fold_left (q_step par hold qs j (x j)) l s.
Proof.
  induction l as [|t l IH]; intros [U D]; cbn [map fold_left]; auto. rewrite IH. f_equal.
  unfold dq_step, q_step, lq. cbn [l_data l_val l_scale l_hold l_par K k_qval]. fold (x j).
  replace (x j (t_data t) * (exp (par (t_par t)) * t_scale t)) with (x j (t_data t) * t_scale t * exp (par (t_par t))) by ring. auto.
Qed.
Lemma dq_divides j U l : forall D, fold_left (dq_divide j U) (map lq l) D = fold_left (q_divide hold j U) l D.
Proof. induction l as [|t l IH]; intros D; cbn [map fold_left]; auto. Qed.
Lemma dca_steps j l : forall s, fold_left (dca_step A c j) (map lca l) s = ca_alt par hold l j (x j) s.
Proof. unfold ca_alt. induction l as [|t l IH]; intros [U D]; cbn [map fold_left]; auto. Qed.
Lemma dco_steps l : forall s, fold_left (dco_step A c) (map lco l) s = utility_from_data_co par hold l (a_av A c) (a_co A c) s.
Proof.
  unfold utility_from_data_co. induction l as [|t l IH]; intros [U D]; cbn [map fold_left]; auto. rewrite IH. f_equal.
  unfold dco_step, co_step, lco. cbn [lc_alt lc_val lc_scale lc_hold lc_par lc_data]. destruct (a_av A c (c_alt t)); auto.
  destruct (c_data t) as [d|]; auto. now rewrite (Rmult_comm (par (c_par t))).
Qed.

(** ---------- one alternative ---------- *)
(** Value before the idco terms: minus infinity when there are quantity terms and their total is not positive. *)
Definition base (j : nat) : option R :=
  match q with
  | [] => Some (linear_ca ca (x j) par)
  | _ => if Rlt_dec 0 (size q (x j) par) then Some (log_size q qs (x j) par + linear_ca ca (x j) par) else None
  end.
Lemma d_alt_other s j a : j <> a ->
  fst (fst (d_alt A K c s j)) a = fst (fst s) a /\ snd (fst (d_alt A K c s j)) a = snd (fst s) a /\ snd (d_alt A K c s j) a = snd s a.
Proof.
  intros Hn. destruct s as [[U D] Q]. cbn [fst snd]. unfold d_alt. destruct (usable A c j); [|cbn [fst snd]; rewrite upd_neq by auto; auto].
  assert (Hca : forall l U D, fst (fold_left (dca_step A c j) l (U, D)) a = U a /\ snd (fold_left (dca_step A c j) l (U, D)) a = D a).
  { induction l as [|t l IH]; intros U0 D0; cbn [fold_left]; auto. unfold dca_step at 2 4. destruct (IH (addU U0 j (fetch A c j (row_for A c j) (l_data t) * l_scale t * l_val t)) (if l_hold t then D0 else addD D0 j (l_par t) (fetch A c j (row_for A c j) (l_data t) * l_scale t))) as [E1 E2].
    rewrite E1, E2. unfold addU, addD. rewrite upd_neq by auto. destruct (l_hold t); [|rewrite upd_neq by auto]; auto. }
  assert (Hq : forall l U D, fst (fold_left (dq_step A K c j) l (U, D)) a = U a /\ snd (fold_left (dq_step A K c j) l (U, D)) a = D a).
  { induction l as [|t l IH]; intros U0 D0; cbn [fold_left]; auto. unfold dq_step at 2 4. cbv zeta.
    set (D1 := if l_hold t then D0 else _). set (U1 := addU U0 j _). destruct (IH U1 D1) as [E1 E2].
    rewrite E1, E2. unfold U1, D1, addU, addD. rewrite upd_neq by auto. destruct (l_hold t); [|rewrite upd_neq by auto]; auto. }
  assert (Hd : forall V l D, fold_left (dq_divide j V) l D a = D a).
  { intros V. induction l as [|t l IH]; intros D0; cbn [fold_left]; auto. rewrite IH. unfold dq_divide. destruct (l_hold t); auto. now rewrite upd_neq by auto. }
  destruct (dq_alt A K c j (U, D, Q)) as [[U1 D1] Q1] eqn:E.
  assert (HH : U1 a = U a /\ D1 a = D a /\ Q1 a = Q a).
  { unfold dq_alt in E. destruct (k_q K) as [|t0 l0] eqn:Eq; [injection E as <- <- <-; auto|]. rewrite <- Eq in E.
    destruct (Hq (k_q K) U D) as [H1 H2]. destruct (fold_left (dq_step A K c j) (k_q K) (U, D)) as [U2 D2]. cbn [fst snd] in *. injection E as <- <- <-.
    rewrite !upd_neq by auto. split; auto. split; auto. destruct qs as [s1|]; [|now rewrite Hd]. destruct (hold s1); [now rewrite Hd|].
    unfold addD. rewrite upd_neq by auto. now rewrite Hd. }
  destruct HH as (E1 & E2 & E3). destruct (Hca (k_ca K) U1 D1) as [F1 F2]. destruct (fold_left (dca_step A c j) (k_ca K) (U1, D1)) as [U3 D3]. cbn [fst snd] in *.
  rewrite F1, F2. auto.
Qed.
Lemma d_alt_self U D Q j : U j = Some 0 -> (forall p, D j p = 0) -> Q j = 0 ->
  let r := d_alt A K c (U, D, Q) j in
  fst (fst r) j = (if usable A c j then base j else None) /\
  snd r j = (if usable A c j then match q with [] => 0 | _ => size q (x j) par end else 0) /\
  (usable A c j = true -> (q <> [] -> 0 < size q (x j) par) ->
   forall p, snd (fst r) j p = dq par hold q qs (x j) p + (if hold p then 0 else coef_ca ca (x j) p)) /\
  (usable A c j = false -> forall p, snd (fst r) j p = 0).
Proof.
  intros HU HD HQ r. unfold r, d_alt. destruct (usable A c j).
  2:{ cbn [fst snd]. rewrite upd_eq, HQ. repeat split; auto; discriminate. }
  assert (E : exists U1 D1 Q1, dq_alt A K c j (U, D, Q) = (U1, D1, Q1) /\
     U1 j = (match q with [] => Some 0 | _ => if Rlt_dec 0 (size q (x j) par) then Some (log_size q qs (x j) par) else None end) /\
     Q1 j = match q with [] => 0 | _ => size q (x j) par end /\
     ((q <> [] -> 0 < size q (x j) par) -> forall p, D1 j p = dq par hold q qs (x j) p)).
  { unfold dq_alt. cbn [K k_q]. destruct q as [|t0 q0] eqn:Eq.
    - cbn [map]. exists U, D, Q. repeat split; auto.
    - rewrite <- Eq. destruct (map lq q) as [|t1 l1] eqn:El; [rewrite Eq in El; discriminate|]. rewrite <- El.
      rewrite dq_steps, q_fold_row. rewrite dq_divides, upd_eq, HU. cbn [oplus]. rewrite Rplus_0_l.
      set (sz := size q (x j) par) in *.
      eexists _, _, _. split; [reflexivity|]. rewrite !upd_eq. split; [|split].
      + cbn [clog]. destruct (Rlt_dec 0 sz); cbn [cscale]; auto. f_equal. unfold log_size. rewrite Eq. rewrite <- Eq. fold sz. unfold K, q_scale_value. cbn [k_qval].
        unfold q_scale_value. destruct qs; ring.
      + auto.
      + intros Hs p. assert (Hp : 0 < sz) by (apply Hs; rewrite Eq; discriminate).
        assert (Hne : sz <> 0) by lra.
        rewrite q_divide_row by (rewrite upd_eq; cbn [val]; auto). rewrite upd_eq. cbn [val K k_qs k_qhold]. unfold dq. rewrite Eq. rewrite <- Eq. fold sz.
        assert (Hc : clog (Some sz) = Some (ln sz)) by (cbn; destruct (Rlt_dec 0 sz); auto; lra).
        assert (G : upd D j (fun p0 => D j p0 + (if hold p0 then 0 else qcoef par q (x j) p0 * q_scale_value par qs)) j p
           = D j p + (if hold p then 0 else qcoef par q (x j) p * q_scale_value par qs)) by (now rewrite upd_eq).
        destruct qs as [s|].
        * destruct (hold s) eqn:Es.
          -- rewrite upd_eq. cbv beta. rewrite ?upd_eq. cbn [val]. rewrite HD. destruct (hold p); [lra|]. field. apply pow_nonzero. auto.
          -- rewrite Hc. cbn [val]. unfold addD. rewrite !upd_eq. destruct (Nat.eqb_spec p s) as [ ->|Hps].
             ++ rewrite !upd_eq. cbv beta. rewrite ?upd_eq. cbn [val]. rewrite HD, Es. f_equal. field. apply pow_nonzero; auto.
             ++ rewrite !upd_neq by auto. cbv beta. rewrite ?upd_eq. cbn [val]. rewrite HD. destruct (hold p); [lra|]. field. apply pow_nonzero; auto.
        * rewrite upd_eq. cbv beta. rewrite ?upd_eq. cbn [val]. rewrite HD. destruct (hold p); [lra|]. field. apply pow_nonzero; auto. }
  destruct E as (U1 & D1 & Q1 & E & E1 & E2 & E3). rewrite E. cbn [K k_ca]. rewrite dca_steps, ca_alt_row. cbn [fst snd]. rewrite !upd_eq.
  split; [|split; [auto|split; [|discriminate]]].
  - rewrite E1. unfold base. destruct q; [cbn [oplus]; now rewrite Rplus_0_l|]. destruct (Rlt_dec 0 _); cbn [oplus]; auto.
  - intros _ Hs p. unfold gD_ca. now rewrite E3.
Qed.

(** ---------- one case, before the overflow guard ---------- *)
Definition alts (n : nat) : dstate := fold_left (d_alt A K c) (seq 0 n) (fun _ => Some 0, fun _ _ => 0, fun _ => 0).
Lemma alts_at n a : (a < n)%nat -> let r := alts n in
  fst (fst r) a = (if usable A c a then base a else None) /\
  snd r a = (if usable A c a then match q with [] => 0 | _ => size q (x a) par end else 0) /\
  (usable A c a = true -> (q <> [] -> 0 < size q (x a) par) ->
   forall p, snd (fst r) a p = dq par hold q qs (x a) p + (if hold p then 0 else coef_ca ca (x a) p)) /\
  (usable A c a = false -> forall p, snd (fst r) a p = 0).
Proof.
  intros Ha. unfold alts.
  assert (Hother : forall l s, ~ In a l -> fst (fst (fold_left (d_alt A K c) l s)) a = fst (fst s) a /\
     snd (fst (fold_left (d_alt A K c) l s)) a = snd (fst s) a /\ snd (fold_left (d_alt A K c) l s) a = snd s a).
  { induction l as [|j l IH]; intros s Hn; cbn [fold_left]; auto. cbn [In] in Hn.
    destruct (IH (d_alt A K c s j)) as (E1 & E2 & E3); [tauto|]. destruct (d_alt_other s j a) as (F1 & F2 & F3); [tauto|]. rewrite E1, E2, E3. auto. }
  replace n with (a + (1 + (n - a - 1)))%nat by lia. rewrite seq_app, fold_left_app. cbn [plus seq fold_left]. cbv zeta.
  set (s0 := fold_left _ (seq 0 a) _).
  assert (H0 : fst (fst s0) a = Some 0 /\ snd (fst s0) a = (fun _ => 0) /\ snd s0 a = 0).
  { unfold s0. destruct (Hother (seq 0 a) (fun _ => Some 0, fun _ _ => 0, fun _ => 0)) as (E1 & E2 & E3); [rewrite in_seq; lia|]. auto. }
  destruct s0 as [[U D] Q]. cbn [fst snd] in H0. destruct H0 as (H1 & H2 & H3).
  destruct (Hother (seq (S a) (n - a - 1)) (d_alt A K c (U, D, Q) a)) as (E1 & E2 & E3); [rewrite in_seq; lia|].
  replace (n - a - 1)%nat with (n - a - 1)%nat in * by auto. rewrite E1, E2, E3.
  apply d_alt_self; auto. intros p. now rewrite H2.
Qed.
Lemma alts_out n a : (n <= a)%nat -> let r := alts n in fst (fst r) a = Some 0 /\ (forall p, snd (fst r) a p = 0).
Proof.
  intros Ha. unfold alts. cbv zeta.
  assert (Hother : forall l s, ~ In a l -> fst (fst (fold_left (d_alt A K c) l s)) a = fst (fst s) a /\
     snd (fst (fold_left (d_alt A K c) l s)) a = snd (fst s) a).
  { induction l as [|j l IH]; intros s Hn; cbn [fold_left]; auto. cbn [In] in Hn.
    destruct (IH (d_alt A K c s j)) as (E1 & E2); [tauto|]. destruct (d_alt_other s j a) as (F1 & F2 & F3); [tauto|]. rewrite E1, E2. auto. }
  destruct (Hother (seq 0 n) (fun _ => Some 0, fun _ _ => 0, fun _ => 0)) as [E1 E2]; [rewrite in_seq; lia|]. rewrite E1, E2. auto.
Qed.
(** The whole case without the guard. *)
Definition raw (n : nat) : dstate :=
  let '(U, D, Q) := alts n in let (U', D') := utility_from_data_co par hold co (a_av A c) (a_co A c) (U, D) in (U', D', Q).
Definition tot (a : nat) : option R := match base a with Some b => Some (b + linear_co co a (a_co A c) par) | None => None end.
Lemma raw_at n a : (a < n)%nat -> let r := raw n in
  fst (fst r) a = (if usable A c a then tot a else None) /\
  snd r a = (if usable A c a then match q with [] => 0 | _ => size q (x a) par end else 0) /\
  (usable A c a = true -> (q <> [] -> 0 < size q (x a) par) ->
   forall p, snd (fst r) a p = dq par hold q qs (x a) p + (if hold p then 0 else coef_ca ca (x a) p + coef_co co a (a_co A c) p)) /\
  (usable A c a = false -> forall p, snd (fst r) a p = if a_av A c a then if hold p then 0 else coef_co co a (a_co A c) p else 0).
Proof.
  intros Ha. unfold raw. assert (H := alts_at n a Ha). destruct (alts n) as [[U D] Q]. cbn [fst snd] in H. destruct H as (H1 & H2 & H3 & H4).
  destruct (co_fold par hold co (a_av A c) (a_co A c) U D a) as [F1 F2]. cbv zeta in F1, F2 |- *.
  destruct (utility_from_data_co par hold co (a_av A c) (a_co A c) (U, D)) as [U' D']. cbn [fst snd] in *. rewrite F1, H1.
  assert (Hav : usable A c a = true -> a_av A c a = true) by (unfold usable; intros E; now apply andb_prop in E as [E _]).
  split; [|split; [auto|split]].
  - destruct (usable A c a) eqn:Eu; [rewrite Hav by auto; unfold tot; destruct (base a); auto|destruct (a_av A c a); auto].
  - intros Eu Hs p. rewrite F2, H3, Hav by auto. destruct (hold p); lra.
  - intros Eu p. rewrite F2, H4 by auto. lra.
Qed.

(** ---------- the guard ---------- *)
Lemma max_U_ge n U : 0 <= max_U n U.
Proof.
  unfold max_U. assert (G : forall l m, 0 <= m -> 0 <= fold_left (fun m j => match U j with Some v => if Rlt_dec m v then v else m | None => m end) l m).
  { induction l as [|j l IH]; intros m Hm; cbn [fold_left]; auto. apply IH. destruct (U j) as [v|]; auto. destruct (Rlt_dec m v); lra. }
  apply G. lra.
Qed.
Lemma max_U_bound n U j v : (j < n)%nat -> U j = Some v -> v <= max_U n U.
Proof.
  intros Hj E. unfold max_U.
  assert (Gm : forall l m, m <= fold_left (fun m j => match U j with Some v => if Rlt_dec m v then v else m | None => m end) l m).
  { induction l as [|i l IH]; intros m; cbn [fold_left]; [lra|]. refine (Rle_trans _ _ _ _ (IH _)). destruct (U i) as [w|]; [|lra]. destruct (Rlt_dec m w); lra. }
  assert (G : forall l m, In j l -> v <= fold_left (fun m j => match U j with Some v => if Rlt_dec m v then v else m | None => m end) l m).
  { induction l as [|i l IH]; intros m Hi; [destruct Hi|]. cbn [fold_left]. destruct Hi as [ ->|Hi]; [|auto]. refine (Rle_trans _ _ _ _ (Gm _ _)). rewrite E. destruct (Rlt_dec m v); lra. }
  apply G. apply in_seq. lia.
Qed.
Lemma max_U_attained n U : max_U n U = 0 \/ exists j, (j < n)%nat /\ U j = Some (max_U n U).
Proof.
  unfold max_U. assert (G : forall l m, let r := fold_left (fun m j => match U j with Some v => if Rlt_dec m v then v else m | None => m end) l m in r = m \/ exists j, In j l /\ U j = Some r).
  { induction l as [|i l IH]; intros m; cbn [fold_left]; [left; auto|]. cbv zeta. specialize (IH (match U i with Some v => if Rlt_dec m v then v else m | None => m end)). cbv zeta in IH.
    destruct IH as [E|(j & Hj & E)]; [|right; exists j; split; [now right|auto]]. rewrite E.
    destruct (U i) as [v|] eqn:Ei; [|now left]. destruct (Rlt_dec m v); [|now left]. right. exists i. split; [now left|auto]. }
  destruct (G (seq 0 n) 0) as [E|(j & Hj & E)]; [now left|right; exists j; split; [apply in_seq in Hj; lia|auto]].
Qed.
Definition shift_amount (n : nat) (U : nat -> option R) : R := if Rlt_dec 500 (max_U n U) then max_U n U else 0.
Lemma shift_spec n U : overflow_shift n U (shift_amount n U).
Proof.
  unfold overflow_shift, shift_amount. destruct (Rlt_dec 500 (max_U n U)) as [H|H].
  - right. split; auto. split; [|intros; eapply max_U_bound; eauto]. destruct (max_U_attained n U) as [E|E]; auto. lra.
  - left. split; auto. intros j v Hj E. assert (B := max_U_bound n U j v Hj E). lra.
Qed.
Lemma shift_unique n U m : overflow_shift n U m -> m = shift_amount n U.
Proof.
  intros [[ -> H]|[H1 [(j & Hj & E) H2]]].
  - unfold shift_amount. destruct (Rlt_dec 500 (max_U n U)) as [L|]; auto. destruct (max_U_attained n U) as [E|(j & Hj & E)]; [lra|]. assert (B := H j _ Hj E). lra.
  - unfold shift_amount. assert (B := max_U_bound n U j m Hj E). destruct (Rlt_dec 500 (max_U n U)) as [L|L]; [|lra].
    destruct (max_U_attained n U) as [E'|(i & Hi & E')]; [lra|]. assert (B' := H2 i _ Hi E'). lra.
Qed.
Lemma guard_at n U a : (a < n)%nat -> guard n U a = oplus (U a) (- shift_amount n U).
Proof.
  intros Ha. unfold guard, shift_amount. destruct (Rlt_dec 500 (max_U n U)) as [H|H].
  - set (m := max_U n U). assert (G : forall l V, NoDup l -> fold_left (fun U j => addU U j (- m)) l V a = if in_dec Nat.eq_dec a l then oplus (V a) (- m) else V a).
    { induction l as [|j l IH]; intros V Hd; cbn [fold_left]; auto. inversion Hd; subst. rewrite IH by auto. unfold addU. destruct (Nat.eq_dec a j) as [ ->|Hne].
      - rewrite upd_eq. destruct (in_dec Nat.eq_dec j l); [contradiction|]. destruct (in_dec Nat.eq_dec j (j :: l)) as [|N]; [|exfalso; apply N; now left]. destruct (V j); auto.
      - rewrite upd_neq by auto. destruct (in_dec Nat.eq_dec a l), (in_dec Nat.eq_dec a (j :: l)) as [I|N]; auto; [exfalso; apply N; now right|destruct I; [congruence|contradiction]]. }
    rewrite G by apply seq_NoDup. destruct (in_dec Nat.eq_dec a (seq 0 n)) as [|N]; auto. exfalso. apply N. apply in_seq. lia.
  - now rewrite Ropp_0, oplus_0.
Qed.
Lemma onecase_raw n v h : d_utility_onecase A (read_in par hold (link_structure q qs ca co v h)) c n =
  (guard n (fst (fst (raw n))), snd (fst (raw n)), snd (raw n)).
Proof.
  rewrite linked_K. unfold d_utility_onecase, raw. fold (alts n). destruct (alts n) as [[U D] Q]. cbn [K k_co]. rewrite dco_steps.
  destruct (utility_from_data_co par hold co (a_av A c) (a_co A c) (U, D)) as [U' D']. auto.
Qed.
End Run.

(** ---------- the two functions compute the same utilities ---------- *)
Lemma same_utilities A k c n : utility_onecase A k c n = (fst (fst (d_utility_onecase A k c n)), snd (d_utility_onecase A k c n)).
Proof.
  assert (Hca : forall j l U D, fst (fold_left (dca_step A c j) l (U, D)) = fold_left (ca_step1 A c j) l U).
  { intros j. induction l as [|t l IH]; intros U D; cbn [fold_left]; auto. unfold dca_step at 2. apply IH. }
  assert (Hq : forall j l U D, fst (fold_left (dq_step A k c j) l (U, D)) = fold_left (q_step1 A c j) l U).
  { intros j. induction l as [|t l IH]; intros U D; cbn [fold_left]; auto. unfold dq_step at 2. apply IH. }
  assert (Hco : forall l U D, fst (fold_left (dco_step A c) l (U, D)) = fold_left (co_step1 A c) l U).
  { induction l as [|t l IH]; intros U D; cbn [fold_left]; auto. unfold dco_step at 2, co_step1 at 2. destruct (a_av A c (lc_alt t)); auto. destruct (lc_data t); apply IH. }
  assert (Halt : forall U D Q j, u_alt A k c (U, Q) j = (fst (fst (d_alt A k c (U, D, Q) j)), snd (d_alt A k c (U, D, Q) j))).
  { intros U D Q j. unfold u_alt, d_alt. destruct (usable A c j); auto. unfold dq_alt. destruct (k_q k) as [|t0 l0] eqn:E.
    - rewrite <- (Hca j (k_ca k) U D). destruct (fold_left (dca_step A c j) (k_ca k) (U, D)). auto.
    - rewrite <- (Hq j (t0 :: l0) U D). destruct (fold_left (dq_step A k c j) (t0 :: l0) (U, D)) as [U1 D1]. cbn [fst].
      rewrite <- (Hca j (k_ca k) _ (match k_qs k with Some p => if k_qhold k then fold_left (dq_divide j U1) (t0 :: l0) D1 else addD (fold_left (dq_divide j U1) (t0 :: l0) D1) j p (val (clog (U1 j))) | None => fold_left (dq_divide j U1) (t0 :: l0) D1 end)).
      destruct (fold_left (dca_step A c j) (k_ca k) _). auto. }
  assert (Hfold : forall l U D Q, fold_left (u_alt A k c) l (U, Q) = (fst (fst (fold_left (d_alt A k c) l (U, D, Q))), snd (fold_left (d_alt A k c) l (U, D, Q)))).
  { induction l as [|j l IH]; intros U D Q; cbn [fold_left]; auto. rewrite (Halt U D Q j). destruct (d_alt A k c (U, D, Q) j) as [[U1 D1] Q1]. apply IH. }
  unfold utility_onecase, d_utility_onecase. rewrite (Hfold (seq 0 n) (fun _ => Some 0) (fun _ _ => 0) (fun _ => 0)).
  destruct (fold_left (d_alt A k c) (seq 0 n) _) as [[U D] Q]. cbn [fst snd]. rewrite <- (Hco (k_co k) U D).
  destruct (fold_left (dco_step A c) (k_co k) (U, D)). auto.
Qed.
