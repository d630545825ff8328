(** C64: from data to the likelihood and gradient of the compiled nested and cross-nested logit. *)
From Coq Require Import FunctionalExtensionality.
From Coquelicot Require Import Coquelicot.
From Verif Require Import NetEx2Props.
From Verif Require Import CyuProps CyuExProps.
Open Scope list_scope. Open Scope R_scope.

(** One case from data: utilities, then the nested logit kernel (nl.pyx 552-674 after dataframes.pyx 2356-2463). *)
Definition cy_nl (w : net) (slot : nat -> option nat) (fixed : nat -> R) (A : arrays) (hold : nat -> bool)
    (q : list UtilityModel.term) (qs : option nat) (ca : list UtilityModel.term) (co : list coterm) (c width : nat) (ch : nat -> R) (wt : R)
    (par : nat -> R) : net_case :=
  let s := cy_case A par hold q qs ca co c (w_alts w) in
  net_run w (net_mu slot fixed par) slot (fst (fst s)) (snd (fst s)) width ch wt.

(** Probabilities and log likelihood are those of the textbook utilities: the overflow guard does not show. *)
Theorem C64_nested_from_data : forall w kids slot fixed A par hold q qs ca co c width ch wt, net_dag w kids ->
  (forall k, (w_alts w <= k < w_nodes w)%nat -> 0 < net_mu slot fixed par k) -> positive_sizes A q par c (w_alts w) ->
  exists us, textbook_utilities A q qs ca co par c (w_alts w) us /\ forall du,
    let out := cy_nl w slot fixed A hold q qs ca co c width ch wt par in
    let ideal := net_run w (net_mu slot fixed par) slot us du width ch wt in
    (forall k, (k < w_nodes w)%nat -> v_prob out k = v_prob ideal k) /\ v_ll out = v_ll ideal.
Proof.
  intros w kids slot fixed A par hold q qs ca co c width ch wt T M Hs.
  destruct (C64_utility A par hold q qs ca co c (w_alts w) Hs) as (us & m & Ht & _ & Hu). exists us. split; auto. intros du. cbv zeta.
  assert (H := C63_translation w kids (net_mu slot fixed par) slot us (fst (fst (cy_case A par hold q qs ca co c (w_alts w)))) du
    (snd (fst (cy_case A par hold q qs ca co c (w_alts w)))) width ch wt (- m) T M).
  cbv zeta in H. destruct H as [H1 H2]; [intros a Ha; rewrite (Hu a Ha); destruct (us a); auto|]. split; auto. intros k Hk. now apply H1.
Qed.

(** The textbook utilities as a function of the parameters. *)
Definition tb (A : arrays) q qs ca co (c : nat) (par : nat -> R) (j : nat) : option R :=
  if CyuModel.usable A c j then Some (total_utility q qs ca co j (xrow A c j) (a_co A c) par) else None.
Lemma tb_textbook A q qs ca co c par n : textbook_utilities A q qs ca co par c n (tb A q qs ca co c par).
Proof.
  unfold tb. split.
  - intros j x Hj Hx. destruct (row_usable A c j x Hx) as [-> ->]. auto.
  - intros j Hj Hn. apply no_data_usable in Hn. now rewrite Hn.
Qed.
Lemma textbook_tb A q qs ca co c par n us j : (j < n)%nat -> textbook_utilities A q qs ca co par c n us -> us j = tb A q qs ca co c par j.
Proof.
  intros Hj [H1 H2]. unfold tb. destruct (CyuModel.usable A c j) eqn:E; [apply H1; auto; now apply usable_row|apply H2; auto; now apply no_data_usable].
Qed.

(** From data to gradient: the gradient the compiled engine reports for a free parameter is the derivative of the log
    likelihood it reports.  Missing: a quantity parameter used twice, a logsum parameter on the root, of a nest with
    several parents, used again below, or over allocations below one of nests with another logsum parameter (see C63). *)
Theorem C64_nested_gradient_partial : forall w kids slot fixed A par hold q qs ca co c width ch wt p,
  net_dag w kids -> (width <= w_nodes w)%nat -> hold p = false -> (count q p <= 1)%nat ->
  (forall j x, (j < w_alts w)%nat -> data_row A c j x -> size_positive q x) ->
  (forall k, (w_alts w <= k < w_nodes w)%nat -> 0 < net_mu slot fixed par k) ->
  slot (w_nodes w - 1)%nat <> Some p ->
  (forall k, (w_alts w <= k < w_nodes w)%nat -> slot k = Some p -> ~ used q qs ca co p /\
     forall j, (w_alts w <= j)%nat -> net_under kids k j -> j <> k -> slot j <> Some p) ->
  (forall j k k' al al', (w_alts w <= j)%nat -> slot j = Some p -> In (j, al) (kids k) -> In (j, al') (kids k') -> k = k') ->
  (forall j, (w_alts w <= j < w_nodes w - 1)%nat -> slot j = Some p -> exists k al, (k < w_nodes w)%nat /\ In (j, al) (kids k)) ->
  (forall k j al, slot k = Some p -> In (j, al) (kids k) -> al <> 1 -> net_mu slot fixed par j = 1) ->
  let run := cy_nl w slot fixed A hold q qs ca co c width ch wt in
  (forall i, (i < width)%nat -> ch i <> 0 -> v_util (run par) i <> None /\ net_under kids (w_nodes w - 1) i) ->
  exists g, v_dll (run par) p = Some g /\ is_derive (fun t => NetModel.uval (v_ll (run (upd par p t)))) (par p) g.
Proof.
  intros w kids slot fixed A par hold q qs ca co c width ch wt p T Hw Hh Hc Hsz M Hroot Hsep Hone Hex Hal run Hch.
  assert (Hs : forall par', positive_sizes A q par' c (w_alts w)).
  { intros par' Hq j x Hj Hx. apply size_pos; auto. now apply (Hsz j x). }
  set (du := snd (fst (cy_case A par hold q qs ca co c (w_alts w)))).
  set (uf := tb A q qs ca co c).
  assert (Hdu : forall j, (j < w_alts w)%nat -> CyuModel.usable A c j = true -> du j p = dq par hold q qs (xrow A c j) p + (coef_ca ca (xrow A c j) p + coef_co co j (a_co A c) p)).
  { intros j Hj Eu. unfold du, cy_case. rewrite onecase_raw. cbn [fst snd].
    destruct (raw_at A par hold q qs ca co c (w_alts w) j Hj) as (_ & _ & E & _). cbv zeta in E. rewrite E, Hh; auto.
    intros Hq. apply (Hs par Hq j); auto. now apply usable_row. }
  assert (G : grad_ok w kids slot fixed uf par du p).
  { constructor; auto.
    - intros t a Ha. unfold uf, tb. destruct (CyuModel.usable A c a); split; intros; congruence.
    - intros a Ha Hf. unfold uf, tb in *. destruct (CyuModel.usable A c a) eqn:Eu; [|congruence]. cbn [NetModel.uval].
      apply (C64_derivative_partial A par hold q qs ca co c (w_alts w) a (xrow A c a) p); auto; [now apply usable_row|].
      intros Hq. apply (Hs par Hq a); auto. now apply usable_row.
    - intros k j Hk Es Hun Hne. destruct (Hsep k Hk Es) as [Hus Hdist]. split; [intros Hj; now apply Hdist|]. intros Hj Hf.
      unfold uf, tb in Hf. destruct (CyuModel.usable A c j) eqn:Eu; [|congruence]. rewrite Hdu by auto.
      destruct (unused_coef par hold q qs ca co j (xrow A c j) (a_co A c) p Hus) as (E1 & E2 & E3). rewrite E1, E2, E3. ring. }
  destruct (C64_utility A par hold q qs ca co c (w_alts w) (Hs par)) as (us & m & Ht & _ & Hu).
  assert (Hshift : forall a, (a < w_alts w)%nat -> fst (fst (cy_case A par hold q qs ca co c (w_alts w))) a = oshift (- m) (uf par a)).
  { intros a Ha. rewrite (Hu a Ha), (textbook_tb A q qs ca co c par (w_alts w) us a Ha Ht). unfold uf. destruct (tb A q qs ca co c par a); auto. }
  assert (Htr := C63_translation w kids (net_mu slot fixed par) slot (uf par) (fst (fst (cy_case A par hold q qs ca co c (w_alts w)))) du du width ch wt (- m) T M Hshift).
  cbv zeta in Htr. destruct Htr as [HU _].
  assert (Hch' : forall i, (i < width)%nat -> ch i <> 0 ->
     v_util (net_run w (net_mu slot fixed par) slot (uf par) du width ch wt) i <> None /\ net_under kids (w_nodes w - 1) i).
  { intros i Hi Hci. destruct (Hch i Hi Hci) as [H1 H2]. split; auto. intros E. apply H1. unfold run, cy_nl. cbv zeta. fold du.
    rewrite (proj1 (HU i ltac:(lia))). rewrite E. auto. }
  destruct (C63_gradient_partial w kids slot fixed uf par du p width ch wt T G Hw Hch') as (g & E & Hd).
  exists g. split.
  - unfold run, cy_nl. cbv zeta. fold du. rewrite <- E. apply (C63_translation_gradient_partial w kids slot fixed uf par du p width ch wt (- m) _ T G Hw Hch' Hshift).
  - assert (Hmu := grad_mu_near w kids slot fixed uf par du p G).
    eapply is_derive_ext_loc; [|exact Hd]. eapply filter_imp; [|exact Hmu]. intros t Hm. cbv beta.
    set (par' := upd par p t) in *. destruct (C64_nested_from_data w kids slot fixed A par' hold q qs ca co c width ch wt T Hm (Hs par')) as (us' & Ht' & H').
    specialize (H' du). cbv zeta in H'. destruct H' as [_ H']. fold run in H'. change (cy_nl w slot fixed A hold q qs ca co c width ch wt par') with (run par') in H'. rewrite H'. f_equal.
    assert (Htr' := C63_translation w kids (net_mu slot fixed par') slot us' (uf par') du du width ch wt 0 T Hm).
    cbv zeta in Htr'. destruct Htr' as [_ Htr']; [|exact Htr'].
    intros a Ha. rewrite (textbook_tb A q qs ca co c par' (w_alts w) us' a Ha Ht'). unfold uf. destruct (tb A q qs ca co c par' a); cbn; auto. now rewrite Rplus_0_r.
Qed.
(** The cross-nested example of NetEx2Props on the first case of the out-of-order table (alternatives 0 and 1 have rows),
    alternative 1 chosen: the hypotheses hold for each of the five parameters. *)
Example C64_nested_case : let q := mkTerm 1 2 0 :: mkTerm 2 3 1 :: nil in let ca := mkTerm 1 4 0 :: nil in
  let par := fun _ : nat => / 2 in let ch := fun i : nat => if (i =? 1)%nat then 1 else 0 in
  forall p, exists g, v_dll (cy_nl cnl_net cnl_slot (fun _ => 1) ex_arrays (fun _ => false) q None ca nil 0 3 ch 1 par) p = Some g /\
  is_derive (fun t => NetModel.uval (v_ll (cy_nl cnl_net cnl_slot (fun _ => 1) ex_arrays (fun _ => false) q None ca nil 0 3 ch 1 (upd par p t)))) (par p) g.
Proof.
  intros q ca par ch p.
  assert (G := cnl_grad_ok p).
  assert (Hdata : forall j x, data_row ex_arrays 0 j x -> exists b, 0 < b /\ x = fun d => INR d + b).
  { intros j x Hx. apply (C64_ce_rows ex_rows _ _ 0 j x (proj1 C64_case)) in Hx as (_ & _ & Hx). cbn in Hx.
    destruct Hx as [Hx|[Hx|[Hx|[Hx|[]]]]]; injection Hx; intros; subst; eexists; (split; [|reflexivity]); lra. }
  assert (Hsz : forall j x, (j < w_alts cnl_net)%nat -> data_row ex_arrays 0 j x -> size_positive q x).
  { intros j x _ Hx. destruct (Hdata j x Hx) as (b & Hb & ->). split.
    - intros t [ <-|[ <-|[]]]; cbn; lra.
    - intros _. exists (mkTerm 1 2 0). split; [now left|]. cbn. lra. }
  apply (C64_nested_gradient_partial cnl_net cnl_kids cnl_slot (fun _ => 1) ex_arrays par (fun _ => false) q None ca nil 0 3 ch 1 p); auto.
  - exact cnl_dag.
  - cbn. lia.
  - destruct p as [|[|[|[|p]]]]; cbn; lia.
  - exact (go_mu _ _ _ _ _ _ _ _ G).
  - exact (go_root _ _ _ _ _ _ _ _ G).
  - intros k Hk Es. split.
    + assert (Hp : (p < 2)%nat). { cbn [cnl_net w_alts w_nodes] in Hk. unfold cnl_slot in Es. six k; try lia; try discriminate; injection Es as <-; lia. }
      unfold used, q, ca. intros [(t & [ <-|[ <-|[]]] & E)|[E|[(t & [ <-|[]] & E)|(t & [] & _)]]]; cbn in E; try discriminate; lia.
    + intros j Hj Hun Hne. exact (proj1 (go_sep _ _ _ _ _ _ _ _ G k j Hk Es Hun Hne) Hj).
  - exact (go_one _ _ _ _ _ _ _ _ G).
  - exact (go_ex _ _ _ _ _ _ _ _ G).
  - exact (go_alpha _ _ _ _ _ _ _ _ G).
  - intros i Hi Hci. split; [|now apply cnl_reach]. unfold ch in Hci. destruct (Nat.eqb_spec i 1) as [ ->|]; [|congruence].
    unfold cy_nl. cbv zeta.
    assert (HL := C63_logsum cnl_net cnl_kids (net_mu cnl_slot (fun _ => 1) par) cnl_slot (fst (fst (cy_case ex_arrays par (fun _ => false) q None ca nil 0 (w_alts cnl_net))))
      (snd (fst (cy_case ex_arrays par (fun _ => false) q None ca nil 0 (w_alts cnl_net)))) 3 ch 1 cnl_dag (go_mu _ _ _ _ _ _ _ _ G)).
    destruct HL as [HL _]. rewrite HL by (cbn; lia).
    assert (Hps : positive_sizes ex_arrays q par 0 (w_alts cnl_net)).
    { intros Hq j x Hj Hx. apply size_pos; auto. now apply (Hsz j x). }
    destruct (C64_utility ex_arrays par (fun _ => false) q None ca nil 0 (w_alts cnl_net) Hps) as (us & m & [Ht _] & _ & Hu).
    rewrite Hu by (cbn; lia). rewrite (Ht 1%nat (fun d => INR d + 2)) by (try (cbn; lia); apply (C64_ce_rows ex_rows _ _ 0 1 _ (proj1 C64_case)); cbn; repeat split; auto; lia).
    discriminate.
Qed.
