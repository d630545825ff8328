(** C63, concluded: concrete networks that meet the hypotheses, and networks on which the gradient of the
    Cython engine is wrong. *)
From Coq Require Import Permutation ZArith FunctionalExtensionality.
From Verif Require Import TreeModel TreeSpec TreeProofs TreeLogitProps.
From Verif Require TreeProps.
From Verif Require Import LogitExProps.
From Verif Require Export NetExProps.
From Coquelicot Require Import Coquelicot.
Open Scope list_scope. Open Scope R_scope.
Notation pupd := LogitModel.upd.

(** Alternatives 0, 1, 2; nest 3 has 0 and half of 1, nest 4 has the other half of 1 and 2; root 5. *)
Definition cnl_kids (k : nat) : list (nat * R) :=
  match k with
  | 3%nat => (0%nat, 1) :: (1%nat, /2) :: nil
  | 4%nat => (1%nat, /2) :: (2%nat, 1) :: nil
  | 5%nat => (3%nat, 1) :: (4%nat, 1) :: nil
  | _ => nil
  end.
Definition cnl_net : net := mkNet 3 6
  ((3%nat, 0%nat, 1) :: (3%nat, 1%nat, /2) :: (4%nat, 1%nat, /2) :: (4%nat, 2%nat, 1) :: (5%nat, 3%nat, 1) :: (5%nat, 4%nat, 1) :: nil)
  (fun k => match k with 3%nat => 0%nat | 4%nat => 2%nat | 5%nat => 4%nat | _ => 0%nat end)
  (fun k => match k with 3%nat | 4%nat | 5%nat => 2%nat | _ => 0%nat end).
Ltac six k := destruct k as [|[|[|[|[|[|[|k]]]]]]].
Example cnl_dag : net_dag cnl_net cnl_kids.
Proof.
  constructor.
  - cbn. lia.
  - cbn [cnl_net w_alts]. intros k Hk. six k; auto; lia.
  - intros k j a H. six k; cbn in H; try contradiction; destruct H as [E|[E|[]]]; injection E as <- <-; split; lia || lra.
  - intros k. six k; cbn; repeat constructor; cbn; intuition discriminate.
  - reflexivity.
  - cbn [cnl_net w_alts w_nodes]. intros k Hk. six k; try lia; reflexivity.
Qed.
Definition cnl_slot (k : nat) : option nat := match k with 3%nat => Some 0%nat | 4%nat => Some 1%nat | _ => None end.
Definition cnl_uf (x : nat -> R) (a : nat) : option R := if (a =? 0)%nat then None else Some (x 2%nat * INR a).
Definition cnl_du (a p : nat) : R := if (p =? 2)%nat then INR a else 0.
Lemma cnl_under_le k j : net_under cnl_kids k j -> (j <= k)%nat.
Proof. induction 1 as [|k j al a H _ IH]; auto. apply (kid_lt _ _ cnl_dag) in H. lia. Qed.
(** The hypotheses of the gradient theorems hold for each of the three parameters. *)
Example cnl_grad_ok p : grad_ok cnl_net cnl_kids cnl_slot (fun _ => 1) cnl_uf (fun _ => /2) cnl_du p.
Proof.
  constructor.
  - intros t a _. unfold cnl_uf. destruct (a =? 0)%nat; split; congruence.
  - intros a _ Ha. unfold cnl_uf in *. destruct (a =? 0)%nat; [ congruence | ]. cbn [uval]. unfold cnl_du.
    destruct (Nat.eqb_spec p 2) as [ ->|Hne].
    + apply (is_derive_ext (fun t => INR a * t)).
      { intros t. unfold pupd. rewrite Nat.eqb_refl. apply Rmult_comm. }
      auto_derive; auto. ring.
    + apply (is_derive_ext (fun t => /2 * INR a)); [ | apply @is_derive_const ].
      intros t. unfold pupd. destruct (Nat.eqb_spec 2 p); [ congruence | auto ].
  - intros k _. unfold net_mu. destruct (cnl_slot k); lra.
  - discriminate.
  - cbn [cnl_net w_alts w_nodes]. intros k j Hk Hs Hu Hne. apply cnl_under_le in Hu. split.
    + intros Hj E. six k; try lia; cbn in Hs; try discriminate. six j; try lia; cbn in E; congruence.
    + intros Hj _. unfold cnl_du. six k; try lia; cbn in Hs; try discriminate; injection Hs as <-; auto.
  - cbn [cnl_net w_alts]. intros j k k' al al' Hj _ H1 H2.
    six k; cbn in H1; try contradiction; destruct H1 as [E|[E|[]]]; injection E as <- _; try lia;
    six k'; cbn in H2; try contradiction; destruct H2 as [E|[E|[]]]; apply (f_equal fst) in E; cbn in E; try lia; auto.
  - cbn [cnl_net w_alts w_nodes]. intros j Hj Hs. exists 5%nat, 1. split; [ lia | ].
    six j; try lia; cbn in Hs; try discriminate; cbn; auto.
  - intros k j al Hs Hj Ha. unfold net_mu. six k; cbn in Hj; try contradiction; destruct Hj as [E|[E|[]]]; injection E as <- <-; auto; congruence.
Qed.
Example cnl_reach : forall i, (i < 3)%nat -> net_under cnl_kids 5 i.
Proof.
  intros i Hi. six i; try lia.
  - apply (nu_step _ 5 3 1); [ cbn; auto | ]. apply (nu_step _ 3 0 1); [ cbn; auto | constructor ].
  - apply (nu_step _ 5 3 1); [ cbn; auto | ]. apply (nu_step _ 3 1 (/2)); [ cbn; auto | constructor ].
  - apply (nu_step _ 5 4 1); [ cbn; auto | ]. apply (nu_step _ 4 2 1); [ cbn; auto | constructor ].
Qed.

(** The tree of the C20 example, with logsum parameters 0 and 1 on its two nests, in both engines. *)
Definition agree_mus (k : nat) : option nat := match k with 3%nat => Some 0%nat | 4%nat => Some 1%nat | _ => None end.
Definition agree_uf (x : nat -> R) (a : nat) : option R := Some (x 2%nat * 0).
Example agree_hyps : let g := TreeProps.ex_tree in let std := (3 :: 1 :: 2 :: 10 :: 11 :: 0 :: nil)%Z in
  gwf g /\ acyclic g /\ NoDup (gsugg g) /\ incl (gsugg g) (gnodes g) /\ standard_sort g = Some std /\ rooted g /\
  (exists v, link g (groot g) v) /\ single_parent g /\
  mu_positive (model_slots g std agree_mus) (fun _ => 1) /\
  agree_mus (n_nodes (model_slots g std agree_mus) - 1) = None /\
  (forall k s j c d, nth_error std k = Some c -> nth_error std j = Some d -> below g c d -> agree_mus k = Some s ->
     (~ is_leaf g d -> agree_mus j <> Some s) /\ (is_leaf g d -> true = true -> 0 = 0)) /\
  forall a, (a < n_alts (model_slots g std agree_mus))%nat ->
    / 10 ^ 250 <= r_prob (run_case (model_slots g std agree_mus) (fun _ => 1) (agree_uf (fun _ => 1)) (fun _ _ => 0) (fun _ => true)
      (fun a => if (a =? 1)%nat then 1 else 0) 1 (fun _ => None) (fun _ => 0)) a.
Proof.
  intros g std. destruct TreeProps.ex_tree_hyps as (W & A & S1 & S2 & Hr). fold g in W, A, S1, S2, Hr.
  assert (Hs : standard_sort g = Some std) by reflexivity.
  assert (Hc : exists v, link g (groot g) v).
  { exists 11%Z. exists (mkEdge 0 11 false). repeat split; auto. cbn. auto. }
  assert (Hsp : single_parent g).
  { intros u u' v (e & He & <- & Ev) (e' & He' & <- & Ev'). cbn in He, He'.
    destruct He as [ <-|[ <-|[ <-|[ <-|[ <-|[]]]]]], He' as [ <-|[ <-|[ <-|[ <-|[ <-|[]]]]]]; cbn in *; congruence. }
  assert (M : mu_positive (model_slots g std agree_mus) (fun _ => 1)).
  { intros k _. unfold mu_of. destruct (mu_slots _ _); lra. }
  repeat (split; [ assumption || reflexivity | ]). split.
  - intros k s j c d Hk Hj Hb E. split; auto. intros _ E'.
    assert (k = j).
    { six k; cbn in E; try discriminate; six j; cbn in E'; try discriminate; congruence. }
    subst j. assert (c = d) by congruence. subst d. apply (A c Hb).
  - assert (T := bridge_tree g std agree_mus W A S1 S2 Hs Hr Hc Hsp). intros a Ha.
    rewrite (LogitProps.C05_collapse_to_mnl (model_slots g std agree_mus) (kids g std)); auto.
    + change (n_alts (model_slots g std agree_mus)) with 3%nat. cbn [seq Rsum fold_right agree_uf LogitSpec.oexp].
      replace (1 * 0 / 1) with 0 by field. rewrite exp_0. assert (H := big_enough). lra.
    + intros b _. unfold finite, agree_uf. split; [ congruence | auto ].
    + intros k _. unfold mu_of. destruct (mu_slots _ _); auto.
    + exists a. split; auto.
Qed.

(** ---------- where the gradient is wrong ---------- *)
Lemma ln2_pos : 0 < ln 2. Proof. rewrite <- ln_1. apply ln_increasing; lra. Qed.
Lemma D_column w kids mu slot u du p k : net_dag w kids -> (forall k, (w_alts w <= k < w_nodes w)%nat -> 0 < mu k) ->
  net_dutility w mu slot (net_utilities w mu u) du k p =
  fold_left (col w mu u slot p) (w_edges w) (fun k => if (k <? w_alts w)%nat then du k p else 0) k.
Proof. intros T M. unfold net_dutility. now rewrite (dutil_col w kids T mu M u slot p) by auto. Qed.

(** Two alternatives of utility 0 under a root with a free logsum parameter theta, the first chosen: the log
    likelihood is - ln 2 whatever theta, the reported gradient is ln 2 / theta. *)
Definition fork_kids (k : nat) : list (nat * R) := match k with 2%nat => (0%nat, 1) :: (1%nat, 1) :: nil | _ => nil end.
Definition fork_net : net := mkNet 2 3 ((2%nat, 0%nat, 1) :: (2%nat, 1%nat, 1) :: nil) (fun _ => 0%nat) (fun k => if (k =? 2)%nat then 2%nat else 0%nat).
Lemma fork_dag : net_dag fork_net fork_kids.
Proof.
  constructor.
  - cbn. lia.
  - cbn [fork_net w_alts]. intros k Hk. six k; auto; lia.
  - intros k j a H. six k; cbn in H; try contradiction; destruct H as [E|[E|[]]]; injection E as <- <-; split; lia || lra.
  - intros k. six k; cbn; repeat constructor; cbn; intuition discriminate.
  - reflexivity.
  - cbn [fork_net w_alts w_nodes]. intros k Hk. six k; try lia; reflexivity.
Qed.
Definition fork_run (t : R) : net_case :=
  net_run fork_net (fun _ => t) (fun k => if (k =? 2)%nat then Some 0%nat else None) (fun _ => Some 0) (fun _ _ => 0) 2
    (fun a => if (a =? 0)%nat then 1 else 0) 1.
Section Fork.
Variable t : R.
Hypothesis Ht : 0 < t.
Let M : forall k, (w_alts fork_net <= k < w_nodes fork_net)%nat -> 0 < (fun _ : nat => t) k. Proof. intros; auto. Qed.
Notation U := (net_utilities fork_net (fun _ => t) (fun _ => Some 0)).
Notation slotf := (fun k => if (k =? 2)%nat then Some 0%nat else None).
Lemma fork_U01 a : (a < 2)%nat -> U a = Some 0. Proof. intros. now apply (U_alt_net _ _ fork_dag _ M). Qed.
Lemma fork_sum : nest_sum t U (fork_kids 2) = 2.
Proof.
  unfold nest_sum. cbn [fork_kids Rsum fold_right]. unfold term. cbn [fst snd]. rewrite !fork_U01 by lia. rewrite ln_1.
  replace ((0 + 0) / t) with 0 by (field; lra). rewrite exp_0. ring.
Qed.
Lemma fork_U2 : U 2%nat = Some (t * ln 2).
Proof.
  destruct (U_val _ _ fork_dag _ M (fun _ => Some 0) 2%nat) as [_ E]; [ cbn; lia | | ].
  - apply (U_fin_parent _ _ fork_dag _ M _ 2 0 1); [ cbn; lia | cbn; auto | ]. rewrite fork_U01 by lia. discriminate.
  - rewrite fork_sum in E. exact E.
Qed.
Lemma fork_cnd a : (a < 2)%nat -> ocexp (edge_cond (fun _ => t) U (mk 2 (a, 1))) = / 2.
Proof.
  intros Ha. rewrite (cnd_share _ _ fork_dag _ M (fun _ => Some 0) 2 (a, 1)).
  - unfold share. rewrite fork_sum. unfold term. cbn [fst snd]. rewrite fork_U01 by auto. rewrite ln_1.
    replace ((0 + 0) / t) with 0 by (field; lra). rewrite exp_0. field.
  - cbn. lia.
  - six a; try lia; cbn; auto.
  - rewrite fork_U2. discriminate.
Qed.
Notation P := (net_probabilities fork_net (fun _ => t) U).
Lemma fork_P2 : P 2%nat = 1. Proof. apply (net_P_root _ _ fork_dag). Qed.
Lemma fork_P a : (a < 2)%nat -> P a = / 2.
Proof.
  intros Ha. rewrite (net_P_node _ _ fork_dag) by (cbn; lia). unfold over_parents.
  cbn [fork_net w_nodes seq Rsum fold_right fork_kids fst]. rewrite fork_P2.
  rewrite !fork_cnd by lia. six a; try lia; cbn [Nat.eqb]; ring.
Qed.
Lemma fork_D k : (k < 3)%nat -> net_dutility fork_net (fun _ => t) slotf U (fun _ _ => 0) k 0%nat = 0.
Proof.
  intros Hk. rewrite (D_column _ _ _ _ _ _ _ _ fork_dag M). cbn [fork_net w_edges fold_left].
  assert (H0 : forall a x, (a < 2)%nat -> hh fork_net (fun _ => t) (fun _ => Some 0) slotf 0 a x = x).
  { intros a x Ha. unfold hh, modp. assert (E : Nat.leb (w_alts fork_net) a = false) by (apply Nat.leb_gt; cbn; auto).
    rewrite E, andb_false_l, andb_false_r. auto. }
  assert (G : forall a x, (a < 2)%nat -> gg fork_net (fun _ => t) (fun _ => Some 0) slotf 0 (2%nat, a, 1) x = / 2 * x).
  { intros a x Ha. unfold gg. change (2%nat, a, 1) with (mk 2 (a, 1)). rewrite fork_cnd by auto.
    cbn [mk e_up e_dn fst snd isp Nat.eqb]. unfold isp. cbn [Nat.eqb]. unfold adj, mk, e_dn, e_al. cbn [fst snd].
    destruct (Req_EM_T 1 1); [ | congruence ]. rewrite fork_U01 by auto. cbn [uval]. ring. }
  unfold col, e_dn, e_up. cbn [fst snd]. unfold pupd.
  six k; try lia; cbn [Nat.eqb Nat.ltb Nat.leb w_alts fork_net]; rewrite ?H0, ?G by lia; cbn [Nat.eqb]; rewrite ?H0 by lia; ring.
Qed.
Lemma fork_dll : v_dll (fork_run t) 0%nat = Some (ln 2 / t).
Proof.
  cbn [fork_run net_run v_dll].
  set (D := net_dutility fork_net (fun _ => t) slotf U (fun _ _ => 0)).
  assert (Hact : forall a, (a < 3)%nat -> act fork_net (fun _ => t) (fun _ => Some 0) a = true).
  { intros a Ha. unfold act. six a; try lia; rewrite ?fork_U2, ?fork_U01 by lia; auto. }
  assert (Q2 : qfin fork_net (fun _ => t) (fun _ => Some 0) slotf 0 D 2 = 0).
  { rewrite (q_rec _ _ fork_dag). unfold over_parents. cbn [fork_net w_nodes seq Rsum fold_right fork_kids fst Nat.eqb]. ring. }
  assert (Q0 : qfin fork_net (fun _ => t) (fun _ => Some 0) slotf 0 D 0 = ln 2 / t * / 2).
  { rewrite (q_rec _ _ fork_dag). unfold over_parents. cbn [fork_net w_nodes seq Rsum fold_right fork_kids fst Nat.eqb].
    rewrite fork_cnd by lia. rewrite Q2. unfold sc, isp, mk, e_up, e_dn, e_al. cbn [fst snd Nat.eqb].
    unfold D. rewrite !fork_D by lia. rewrite fork_U2, fork_U01 by lia. cbn [uval]. fold fork_net. rewrite fork_P2.
    destruct (Req_EM_T 1 1); [ | congruence ]. field. lra. }
  rewrite (dll_sum 2 (fun a => if (a =? 0)%nat then 1 else 0) 1 0 P _ (qfin fork_net (fun _ => t) (fun _ => Some 0) slotf 0 D)).
  - cbn [seq Rsum fold_right Nat.eqb]. rewrite Q0. rewrite !fork_P by lia. destruct (Req_EM_T 1 0); [ lra | ]. destruct (Req_EM_T 0 0); [ | lra ]. f_equal. field. lra.
  - intros i Hi Hc. split; [ rewrite fork_P by auto; lra | ]. apply (Q_fin _ _ fork_dag _ M). apply Hact. lia.
Qed.
Lemma fork_ll : v_ll (fork_run t) = Some (- ln 2).
Proof.
  cbn [fork_run net_run v_ll]. rewrite loglike_sum.
  - cbn [seq Rsum fold_right Nat.eqb]. rewrite !fork_P by lia. rewrite ln_Rinv by lra. f_equal. ring.
  - intros i Hi _. rewrite fork_P by auto. lra.
Qed.
End Fork.
Theorem C63_root_logsum_refuted theta : 0 < theta ->
  is_derive (fun t => uval (v_ll (fork_run t))) theta 0 /\
  v_dll (fork_run theta) 0%nat = Some (ln 2 / theta) /\ ln 2 / theta <> 0.
Proof.
  intros Ht. split; [ | split ].
  - apply (is_derive_ext_loc (fun _ => - ln 2)); [ | apply @is_derive_const ].
    exists (mkposreal theta Ht). intros t Hb. assert (H : 0 < t).
    { unfold ball in Hb. cbn in Hb. unfold AbsRing_ball, abs, minus, plus, opp in Hb. cbn in Hb. apply Rabs_def2 in Hb. lra. }
    now rewrite fork_ll.
  - now apply fork_dll.
  - assert (H := ln2_pos). apply Rgt_not_eq. apply Rdiv_lt_0_compat; auto.
Qed.
