(** C63: a nest with two parents: the gradient of the Cython engine with respect to its logsum parameter is
    wrong. *)
From Coq Require Import Permutation ZArith FunctionalExtensionality.
From Verif Require Export NetEx2Props.
From Coquelicot Require Import Coquelicot.
Open Scope list_scope. Open Scope R_scope.

(** Alternatives 0, 1, 2; nest 3 has 0 and 1; nests 4 and 5 have half of nest 3 each; the root 6 has 4, 5
    and 2.  Only nest 3 has a free logsum parameter (parameter 0); all utilities are 0; 2 is chosen. *)
Definition two_kids (k : nat) : list (nat * R) :=
  match k with
  | 3%nat => (0%nat, 1) :: (1%nat, 1) :: nil
  | 4%nat => (3%nat, /2) :: nil
  | 5%nat => (3%nat, /2) :: nil
  | 6%nat => (4%nat, 1) :: (5%nat, 1) :: (2%nat, 1) :: nil
  | _ => nil
  end.
Definition two_net : net := mkNet 3 7
  ((3%nat, 0%nat, 1) :: (3%nat, 1%nat, 1) :: (4%nat, 3%nat, /2) :: (5%nat, 3%nat, /2) ::
   (6%nat, 4%nat, 1) :: (6%nat, 5%nat, 1) :: (6%nat, 2%nat, 1) :: nil)
  (fun k => match k with 3%nat => 0%nat | 4%nat => 2%nat | 5%nat => 3%nat | 6%nat => 4%nat | _ => 0%nat end)
  (fun k => match k with 3%nat => 2%nat | 4%nat | 5%nat => 1%nat | 6%nat => 3%nat | _ => 0%nat end).
Ltac seven k := destruct k as [|[|[|[|[|[|[|[|k]]]]]]]].
Lemma two_dag : net_dag two_net two_kids.
Proof.
  constructor.
  - cbn. lia.
  - cbn [two_net w_alts]. intros k Hk. seven k; auto; lia.
  - intros k j a H. seven k; cbn in H; try contradiction;
      repeat (destruct H as [E|H]; [ injection E as <- <-; split; lia || lra | ]); contradiction.
  - intros k. seven k; cbn; repeat constructor; cbn; intuition discriminate.
  - reflexivity.
  - cbn [two_net w_alts w_nodes]. intros k Hk. seven k; try lia; reflexivity.
Qed.
Definition two_slot (k : nat) : option nat := if (k =? 3)%nat then Some 0%nat else None.
Definition two_mu (t : R) (k : nat) : R := if (k =? 3)%nat then t else 1.
Definition two_run (t : R) : net_case :=
  net_run two_net (net_mu two_slot (fun _ => 1) (fun _ => t)) two_slot (fun _ => Some 0) (fun _ _ => 0) 3
    (fun a => if (a =? 2)%nat then 1 else 0) 1.
Lemma two_mu_eq t : net_mu two_slot (fun _ => 1) (fun _ => t) = two_mu t.
Proof. apply functional_extensionality. intros k. unfold net_mu, two_slot, two_mu. now destruct (k =? 3)%nat. Qed.

Section Two.
Variable t : R.
Hypothesis Ht : 0 < t.
Let M : forall k, (w_alts two_net <= k < w_nodes two_net)%nat -> 0 < two_mu t k.
Proof. intros k _. unfold two_mu. destruct (k =? 3)%nat; lra. Qed.
Notation U := (net_utilities two_net (two_mu t) (fun _ => Some 0)).
Notation L := (t * ln 2).
Lemma two_Ua a : (a < 3)%nat -> U a = Some 0. Proof. intros. now apply (U_alt_net _ _ two_dag _ M). Qed.
Lemma two_U k j al s : (3 <= k < 7)%nat -> In (j, al) (two_kids k) -> U j <> None -> nest_sum (two_mu t k) U (two_kids k) = s ->
  U k = Some (two_mu t k * ln s).
Proof.
  intros Hk Hj Hu Es. destruct (U_val _ _ two_dag _ M (fun _ => Some 0) k) as [_ E]; [ cbn; lia | | now rewrite Es in E ].
  now apply (U_fin_parent _ _ two_dag _ M _ k j al).
Qed.
Lemma two_s3 : nest_sum t U (two_kids 3) = 2.
Proof.
  unfold nest_sum. cbn [two_kids Rsum fold_right]. unfold term. cbn [fst snd]. rewrite !two_Ua by lia. rewrite ln_1.
  replace ((0 + 0) / t) with 0 by (field; lra). rewrite exp_0. ring.
Qed.
Lemma two_U3 : U 3%nat = Some L.
Proof. apply (two_U 3 0 1 2); [ lia | cbn; auto | rewrite two_Ua by lia; discriminate | apply two_s3 ]. Qed.
Lemma two_s45 k : (k = 4 \/ k = 5)%nat -> nest_sum 1 U (two_kids k) = exp (L - ln 2).
Proof.
  intros [ ->| ->]; unfold nest_sum; cbn [two_kids Rsum fold_right]; unfold term; cbn [fst snd]; rewrite two_U3, ln_Rinv by lra;
    rewrite Rplus_0_r; f_equal; field.
Qed.
Lemma two_U45 k : (k = 4 \/ k = 5)%nat -> U k = Some (L - ln 2).
Proof.
  intros H. assert (E : two_mu t k = 1) by (destruct H as [ ->| ->]; auto).
  rewrite (two_U k 3 (/2) (exp (L - ln 2))).
  - rewrite E, ln_exp. f_equal. ring.
  - lia.
  - destruct H as [ ->| ->]; cbn; auto.
  - rewrite two_U3. discriminate.
  - rewrite E. now apply two_s45.
Qed.
Lemma exp_half : exp (L - ln 2) = exp L / 2.
Proof. unfold Rminus. rewrite exp_plus, exp_Ropp, exp_ln by lra. auto. Qed.
Lemma two_s6 : nest_sum 1 U (two_kids 6) = exp L + 1.
Proof.
  unfold nest_sum. cbn [two_kids Rsum fold_right]. unfold term. cbn [fst snd]. rewrite !two_U45 by auto. rewrite two_Ua by lia. rewrite ln_1.
  replace ((0 + (L - ln 2)) / 1) with (L - ln 2) by field. replace ((0 + 0) / 1) with 0 by field. rewrite exp_half, exp_0. field.
Qed.
Lemma two_U6 : U 6%nat = Some (ln (exp L + 1)).
Proof.
  rewrite (two_U 6 2 1 (exp L + 1)); [ cbn; f_equal; ring | lia | cbn; auto | rewrite two_Ua by lia; discriminate | apply two_s6 ].
Qed.
Notation cnd k j al := (ocexp (edge_cond (two_mu t) U (mk k (j, al)))).
Lemma two_c3 a : (a < 2)%nat -> cnd 3 a 1 = / 2.
Proof.
  intros Ha. rewrite (cnd_share _ _ two_dag _ M (fun _ => Some 0) 3 (a, 1)).
  - change (two_mu t 3) with t. unfold share. rewrite two_s3. unfold term. cbn [fst snd]. rewrite two_Ua by lia. rewrite ln_1.
    replace ((0 + 0) / t) with 0 by (field; lra). rewrite exp_0. field.
  - cbn. lia.
  - seven a; try lia; cbn; auto.
  - rewrite two_U3. discriminate.
Qed.
Lemma two_c45 k : (k = 4 \/ k = 5)%nat -> cnd k 3%nat (/2) = 1.
Proof.
  intros H. assert (E : two_mu t k = 1) by (destruct H as [ ->| ->]; auto).
  rewrite (cnd_share _ _ two_dag _ M (fun _ => Some 0) k (3%nat, /2)).
  - unfold share. rewrite E, two_s45 by auto. unfold term. cbn [fst snd]. rewrite two_U3, ln_Rinv by lra.
    replace ((- ln 2 + L) / 1) with (L - ln 2) by field. field. apply Rgt_not_eq, exp_pos.
  - cbn. lia.
  - destruct H as [ ->| ->]; cbn; auto.
  - rewrite two_U45 by auto. discriminate.
Qed.
Lemma two_c6 j : (j = 4 \/ j = 5)%nat -> cnd 6 j 1 = exp L / 2 / (exp L + 1).
Proof.
  intros H. rewrite (cnd_share _ _ two_dag _ M (fun _ => Some 0) 6 (j, 1)).
  - change (two_mu t 6) with 1. unfold share. rewrite two_s6. unfold term. cbn [fst snd]. rewrite two_U45, ln_1 by auto.
    replace ((0 + (L - ln 2)) / 1) with (L - ln 2) by field. now rewrite exp_half.
  - cbn. lia.
  - destruct H as [ ->| ->]; cbn; auto.
  - rewrite two_U6. discriminate.
Qed.
Lemma two_c62 : cnd 6 2%nat 1 = / (exp L + 1).
Proof.
  rewrite (cnd_share _ _ two_dag _ M (fun _ => Some 0) 6 (2%nat, 1)).
  - change (two_mu t 6) with 1. unfold share. rewrite two_s6. unfold term. cbn [fst snd]. rewrite two_Ua, ln_1 by lia.
    replace ((0 + 0) / 1) with 0 by field. rewrite exp_0. unfold Rdiv. ring.
  - cbn. lia.
  - cbn; auto.
  - rewrite two_U6. discriminate.
Qed.
Notation P := (net_probabilities two_net (two_mu t) U).
Lemma two_P6 : P 6%nat = 1. Proof. apply (net_P_root _ _ two_dag). Qed.
Lemma two_P2 : P 2%nat = / (exp L + 1).
Proof.
  rewrite (net_P_node _ _ two_dag) by (cbn; lia). unfold over_parents.
  cbn [two_net w_nodes seq Rsum fold_right two_kids fst Nat.eqb]. fold two_net. rewrite two_P6, two_c62. ring.
Qed.
Lemma two_pos : 0 < exp L + 1. Proof. assert (H := exp_pos L). lra. Qed.
Lemma two_ll : v_ll (two_run t) = Some (- ln (exp L + 1)).
Proof.
  unfold two_run. rewrite two_mu_eq. cbn [net_run v_ll]. rewrite loglike_sum.
  - cbn [seq Rsum fold_right Nat.eqb]. rewrite two_P2, ln_Rinv by apply two_pos. f_equal. ring.
  - intros i Hi Hc. destruct (Nat.eqb_spec i 2) as [ ->|]; [ | congruence ]. rewrite two_P2. apply Rinv_0_lt_compat, two_pos.
Qed.
Notation D := (net_dutility two_net (two_mu t) two_slot U (fun _ _ => 0)).
Notation hhc := (hh two_net (two_mu t) (fun _ => Some 0) two_slot 0).
Notation ggc := (gg two_net (two_mu t) (fun _ => Some 0) two_slot 0).
Notation colc := (col two_net (two_mu t) (fun _ => Some 0) two_slot 0).
Lemma two_h k x : (k < 7)%nat -> k <> 3%nat -> hhc k x = x.
Proof.
  intros Hk Hn. unfold hh, modp, isp, two_slot. destruct (Nat.eqb_spec k 3); [ contradiction | ]. now rewrite !andb_false_r.
Qed.
Lemma two_h3 x : hhc 3%nat x = (x + L) / t.
Proof. unfold hh, act, modp, isp, hfin. rewrite two_U3. auto. Qed.
Lemma two_g e c x : (e_up e <> 3)%nat -> ocexp (edge_cond (two_mu t) U e) = c -> ggc e x = c * x.
Proof. intros H <-. unfold gg, isp, two_slot. destruct (Nat.eqb_spec (e_up e) 3); [ contradiction | ]. ring. Qed.
Lemma two_g3 a x : (a < 2)%nat -> ggc (3%nat, a, 1) x = / 2 * x.
Proof.
  intros Ha. unfold gg. change (3%nat, a, 1) with (mk 3 (a, 1)). rewrite two_c3 by auto. unfold isp, two_slot, adj, mk, e_up, e_dn, e_al. cbn [fst snd Nat.eqb].
  destruct (Req_EM_T 1 1); [ | congruence ]. rewrite two_Ua by lia. cbn [uval]. ring.
Qed.
(** one step of the loop *)
Lemma two_col V k j al : colc V (k, j, al) = pupd (pupd V j (hhc j (V j))) k (pupd V j (hhc j (V j)) k + ggc (k, j, al) (hhc j (V j))).
Proof. unfold col, e_dn, e_up. cbn [fst snd]. now rewrite upd_eq. Qed.
Lemma two_D : D 2%nat 0%nat = 0 /\ D 6%nat 0%nat = exp L / 2 / (exp L + 1) * (ln 2 + (ln 2 + L) / t).
Proof.
  rewrite !(D_column _ _ _ _ _ _ _ _ two_dag M). cbn [two_net w_edges w_alts]. fold two_net.
  set (V0 := fun k => if (k <? 3)%nat then 0 else 0). assert (E0 : V0 = fun _ => 0).
  { apply functional_extensionality. intros k. unfold V0. now destruct (k <? 3)%nat. }
  rewrite E0. clear V0 E0. cbn [fold_left].
  (* edges (3,0) and (3,1) change nothing *)
  assert (S1 : forall a, (a < 2)%nat -> colc (fun _ => 0) (3%nat, a, 1) = fun _ => 0).
  { intros a Ha. rewrite two_col, two_h by lia. rewrite two_g3 by auto. apply functional_extensionality. intros k. unfold pupd.
    repeat destruct (Nat.eqb _ _); auto; ring. }
  rewrite !S1 by lia.
  assert (S2 : colc (fun _ => 0) (4%nat, 3%nat, /2) = fun k => if (k =? 3)%nat || (k =? 4)%nat then ln 2 else 0).
  { rewrite two_col, two_h3. rewrite (two_g (4%nat, 3%nat, /2) 1) by (discriminate || apply two_c45; auto). apply functional_extensionality. intros k. unfold pupd.
    seven k; cbn [Nat.eqb orb]; try ring; field; lra. }
  rewrite S2.
  assert (S3 : colc (fun k => if (k =? 3)%nat || (k =? 4)%nat then ln 2 else 0) (5%nat, 3%nat, /2) =
    fun k => match k with 3%nat | 5%nat => (ln 2 + L) / t | 4%nat => ln 2 | _ => 0 end).
  { rewrite two_col, two_h3. rewrite (two_g (5%nat, 3%nat, /2) 1) by (discriminate || apply two_c45; auto). apply functional_extensionality. intros k. unfold pupd.
    seven k; cbn [Nat.eqb orb]; try ring; field; lra. }
  rewrite S3.
  set (c := exp L / 2 / (exp L + 1)).
  assert (S4 : colc (fun k => match k with 3%nat | 5%nat => (ln 2 + L) / t | 4%nat => ln 2 | _ => 0 end) (6%nat, 4%nat, 1) =
    fun k => match k with 3%nat | 5%nat => (ln 2 + L) / t | 4%nat => ln 2 | 6%nat => c * ln 2 | _ => 0 end).
  { rewrite two_col, two_h by lia. rewrite (two_g (6%nat, 4%nat, 1) c) by (discriminate || apply two_c6; auto). apply functional_extensionality. intros k. unfold pupd.
    seven k; cbn [Nat.eqb]; try ring. }
  rewrite S4.
  assert (S5 : colc (fun k => match k with 3%nat | 5%nat => (ln 2 + L) / t | 4%nat => ln 2 | 6%nat => c * ln 2 | _ => 0 end) (6%nat, 5%nat, 1) =
    fun k => match k with 3%nat | 5%nat => (ln 2 + L) / t | 4%nat => ln 2 | 6%nat => c * (ln 2 + (ln 2 + L) / t) | _ => 0 end).
  { rewrite two_col, two_h by lia. rewrite (two_g (6%nat, 5%nat, 1) c) by (discriminate || apply two_c6; auto). apply functional_extensionality. intros k. unfold pupd.
    seven k; cbn [Nat.eqb]; try ring. }
  rewrite S5. rewrite two_col, two_h by lia. rewrite (two_g (6%nat, 2%nat, 1) (/ (exp L + 1))) by (discriminate || apply two_c62).
  unfold pupd. cbn [Nat.eqb]. split; ring.
Qed.
Lemma two_dll : v_dll (two_run t) 0%nat = Some (- (exp L / 2 / (exp L + 1) * (ln 2 + (ln 2 + L) / t))).
Proof.
  unfold two_run. rewrite two_mu_eq. cbn [net_run v_dll]. destruct two_D as [D2 D6]. assert (Hp := two_pos).
  assert (Q6 : qfin two_net (two_mu t) (fun _ => Some 0) two_slot 0 D 6 = 0).
  { rewrite (q_rec _ _ two_dag). unfold over_parents. cbn [two_net w_nodes seq Rsum fold_right two_kids fst Nat.eqb]. ring. }
  assert (Q2 : qfin two_net (two_mu t) (fun _ => Some 0) two_slot 0 D 2 = - (exp L / 2 / (exp L + 1) * (ln 2 + (ln 2 + L) / t)) * / (exp L + 1)).
  { rewrite (q_rec _ _ two_dag). unfold over_parents. cbn [two_net w_nodes seq Rsum fold_right two_kids fst Nat.eqb]. fold two_net.
    rewrite two_c62, Q6. unfold sc, mk, e_up, e_dn, e_al. cbn [fst snd]. rewrite D2, D6, two_P6.
    change (isp two_slot 0 6) with false. change (two_mu t 6) with 1. cbn iota. field. lra. }
  rewrite (dll_sum 3 (fun a => if (a =? 2)%nat then 1 else 0) 1 0 P _ (qfin two_net (two_mu t) (fun _ => Some 0) two_slot 0 D)).
  - cbn [seq Rsum fold_right Nat.eqb]. rewrite Q2, two_P2. destruct (Req_EM_T 1 0); [ lra | ]. destruct (Req_EM_T 0 0); [ | lra ]. f_equal. field. split; lra.
  - intros i Hi Hc. destruct (Nat.eqb_spec i 2) as [ ->|]; [ | congruence ]. split; [ rewrite two_P2; now apply Rinv_0_lt_compat | ].
    apply (Q_fin _ _ two_dag _ M). unfold act. now rewrite two_Ua by lia.
Qed.
End Two.
(** At logsum parameter 1 the derivative of the log likelihood is - (2/3) ln 2; reported: - ln 2. *)
Theorem C63_two_parent_nest_refuted :
  is_derive (fun t => uval (v_ll (two_run t))) 1 (- (2 / 3 * ln 2)) /\
  v_dll (two_run 1) 0%nat = Some (- ln 2) /\ - (2 / 3 * ln 2) <> - ln 2.
Proof.
  assert (H2 := ln2_pos). split; [ | split; [ | lra ] ].
  - apply (is_derive_ext_loc (fun t => - ln (exp (t * ln 2) + 1))).
    + exists (mkposreal 1 Rlt_0_1). intros t Hb. assert (H : 0 < t).
      { unfold ball in Hb. cbn in Hb. unfold AbsRing_ball, abs, minus, plus, opp in Hb. cbn in Hb. apply Rabs_def2 in Hb. lra. }
      now rewrite two_ll.
    + auto_derive.
      * assert (H := exp_pos (1 * ln 2)). lra.
      * rewrite Rmult_1_l, exp_ln by lra. field.
  - rewrite two_dll by lra. rewrite Rmult_1_l, exp_ln by lra. f_equal. field.
Qed.
