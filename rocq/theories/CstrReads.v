(** Constraint strings: which pattern a sentence meets, and what is made of it. *)
From Verif Require Import ParamModel ConsModel ConsSpec CstrModel CstrSpec CstrProofs.
From Coq Require Import Ascii.
Open Scope R_scope.

Definition fixed (P : text -> Prop) : Prop := forall w, P w -> nw w = w.
Lemma fixed_num : fixed numlang. Proof. exact num_nw. Qed.
Lemma fixed_name : fixed name_text. Proof. exact name_nw. Qed.
#[global] Hint Resolve good_num good_name good_ratio fixed_num fixed_name comp_numbr comp_token opr_le opr_ge : cstr.

Lemma none2 A P' O o' B Q' P o Q c w t y :
  comp A P' -> opr O o' -> comp B Q' -> good P' -> good Q' -> good P -> good Q -> shape2 P o Q c w t y ->
  (forall w' y', o = o' -> P' w' -> Q' y' -> nw w = nw w' -> nw y = nw y' -> False) ->
  re_match (Seq A (Seq O B)) c = None.
Proof.
  intros HA HO HB G1 G2 G3 G4 H N. destruct (re_match (Seq A (Seq O B)) c) as [gs|] eqn:E; auto. exfalso.
  apply (re2 _ P' _ o' _ Q') in E as (w' & t' & y' & -> & E); auto.
  destruct (cmp22 _ _ _ _ _ _ _ _ _ _ _ _ _ G3 G4 G1 G2 H E) as (E1 & E2 & E3 & E4).
  apply view2 in E. apply (N w' y'); tauto.
Qed.
Lemma some2 A P O o B Q c w t y : comp A P -> opr O o -> comp B Q -> good P -> good Q -> fixed P -> fixed Q ->
  shape2 P o Q c w t y -> re_match (Seq A (Seq O B)) c = Some [w; t; y].
Proof.
  intros HA HO HB G1 G2 F1 F2 H. pose proof (re2_some A P O o B Q c w t y HA HO HB H) as N.
  destruct (re_match (Seq A (Seq O B)) c) as [gs|] eqn:E; [|congruence].
  apply (re2 _ P _ o _ Q) in E as (w' & t' & y' & -> & E); auto.
  destruct (cmp22 _ _ _ _ _ _ _ _ _ _ _ _ _ G1 G2 G1 G2 H E) as (E1 & E2 & E3 & E4).
  apply view2 in E as (_ & K1 & _ & K2). apply view2 in H as (_ & K3 & _ & K4).
  rewrite !F1 in E1 by auto. rewrite !F2 in E3 by auto. now subst.
Qed.
Lemma none_r2 O o' P o Q c w t y : opr O o' -> good P -> good Q -> shape2 P o Q c w t y ->
  (forall p q m y', o = o' -> ratio_text p q m -> numlang y' -> nw w = nw m -> nw y = nw y' -> False) ->
  re_match (Seq token (Seq rx_slash (Seq token (Seq O numbr)))) c = None.
Proof.
  intros HO G1 G2 H N. destruct (re_match _ c) as [gs|] eqn:E; auto. exfalso.
  apply (rer2 _ o') in E as (p & q & m & t' & y' & -> & E); auto.
  destruct (cmp22 _ _ _ _ _ _ _ _ _ _ _ _ _ G1 G2 (good_ratio p q) good_num H E) as (E1 & E2 & E3 & E4).
  apply view2 in E. apply (N p q m y'); tauto.
Qed.
Lemma ratio_unique p q m p' q' m' : ratio_text p q m -> ratio_text p' q' m' -> nw m = nw m' -> p = p' /\ q = q'.
Proof.
  intros H H' E. pose proof H as (s1 & s2 & _ & Np & _). pose proof H' as (s3 & s4 & _ & Np' & _).
  apply ratio_nw in H as (H & _). apply ratio_nw in H' as (H' & _). rewrite H, H' in E. now apply slash_inj.
Qed.
Lemma some_r2 O o p q m t y c : opr O o -> shape2 (ratio_text p q) o numlang c m t y ->
  re_match (Seq token (Seq rx_slash (Seq token (Seq O numbr)))) c = Some [p; q; t; y].
Proof.
  intros HO H. pose proof (rer2_some O o c p q m t y HO H) as N.
  destruct (re_match _ c) as [gs|] eqn:E; [|congruence].
  apply (rer2 _ o) in E as (p' & q' & m' & t' & y' & -> & E); auto.
  destruct (cmp22 _ _ _ _ _ _ _ _ _ _ _ _ _ (good_ratio p q) good_num (good_ratio p' q') good_num H E) as (E1 & E2 & E3 & E4).
  apply view2 in E as (_ & K1 & _ & K2). apply view2 in H as (_ & K3 & _ & K4).
  rewrite !num_nw in E3 by auto. destruct (ratio_unique _ _ _ _ _ _ K3 K1 E1). now subst.
Qed.
Lemma none3 P o Q c w t y : good P -> good Q -> shape2 P o Q c w t y ->
  re_match n_2w c = None /\ re_match r_2w c = None.
Proof.
  intros G1 G2 H. split.
  - destruct (re_match n_2w c) as [gs|] eqn:E; auto. exfalso.
    apply (re3 _ numlang _ LE _ name_text _ LE _ numlang) in E as (w' & t' & y' & t2 & z' & -> & E); auto with cstr.
    apply (cmp23 _ _ _ _ _ _ _ _ _ _ _ _ _ _ _ _ _ G1 G2 good_num good_name good_num H E).
  - destruct (re_match r_2w c) as [gs|] eqn:E; auto. exfalso.
    apply rer3 in E as (w' & t' & p & q & m & t2 & z' & -> & E).
    apply (cmp23 _ _ _ _ _ _ _ _ _ _ _ _ _ _ _ _ _ G1 G2 good_num (good_ratio p q) good_num H E).
Qed.
(** A three-part sentence meets none of the two-part patterns. *)
Lemma none2_of3 A P' O o' B Q' P o Q ob T c w t y tb z :
  comp A P' -> opr O o' -> comp B Q' -> good P' -> good Q' -> good P -> good Q -> good T ->
  shape3 P o Q ob T c w t y tb z -> re_match (Seq A (Seq O B)) c = None.
Proof.
  intros HA HO HB G1 G2 G3 G4 G5 H. destruct (re_match (Seq A (Seq O B)) c) as [gs|] eqn:E; auto. exfalso.
  apply (re2 _ P' _ o' _ Q') in E as (w' & t' & y' & -> & E); auto.
  apply (cmp23 _ _ _ _ _ _ _ _ _ _ _ _ _ _ _ _ _ G1 G2 G3 G4 G5 E H).
Qed.
Lemma none_r2_of3 O o' P o Q ob T c w t y tb z :
  opr O o' -> good P -> good Q -> good T -> shape3 P o Q ob T c w t y tb z ->
  re_match (Seq token (Seq rx_slash (Seq token (Seq O numbr)))) c = None.
Proof.
  intros HO G3 G4 G5 H. destruct (re_match _ c) as [gs|] eqn:E; auto. exfalso.
  apply (rer2 _ o') in E as (p & q & m & t' & y' & -> & E); auto.
  apply (cmp23 _ _ _ _ _ _ _ _ _ _ _ _ _ _ _ _ _ (good_ratio p q) good_num G3 G4 G5 E H).
Qed.
Lemma some_n2w c w t y t' z : shape3 numlang LE name_text LE numlang c w t y t' z ->
  re_match n_2w c = Some [w; t; y; t'; z].
Proof.
  intros H. pose proof (re3_some numbr numlang rx_le LE token name_text rx_le LE numbr numlang c w t y t' z) as N.
  destruct (re_match n_2w c) as [gs|] eqn:E; [|exfalso; apply N; auto with cstr].
  apply (re3 _ numlang _ LE _ name_text _ LE _ numlang) in E as (w1 & t1 & y1 & t2 & z1 & -> & E); auto with cstr.
  destruct (view3 _ _ _ _ _ _ _ _ _ _ _ H) as (Q1 & A1 & A2 & A3 & A4 & A5).
  destruct (view3 _ _ _ _ _ _ _ _ _ _ _ E) as (Q2 & B1 & B2 & B3 & B4 & B5).
  rewrite Q1, (num_nw w), (name_nw y), (num_nw z), (num_nw w1), (name_nw y1), (num_nw z1) in Q2 by auto.
  pose proof (solid_nw _ (numlang_solid _ A1)). pose proof (solid_nw _ (numlang_solid _ B1)).
  pose proof (solid_nw _ (name_solid _ A3)). pose proof (solid_nw _ (name_solid _ B3)).
  pose proof (solid_nw _ (numlang_solid _ A5)). pose proof (solid_nw _ (numlang_solid _ B5)).
  apply (cut _ _ _ _ _ _ LE LE) in Q2 as (-> & -> & Q2 & _); try tauto; try (eapply noeq_app; [|eassumption]; tauto).
  apply (cut _ _ _ _ _ _ LE LE) in Q2 as (-> & -> & -> & _); try tauto; apply opfree_noeq; tauto.
Qed.
Lemma none_n2w P o Q ob T c w t y tb z : good P -> good Q -> good T -> shape3 P o Q ob T c w t y tb z ->
  (forall y', o = LE -> ob = LE -> name_text y' -> nw y = nw y' -> False) -> re_match n_2w c = None.
Proof.
  intros G1 G2 G3 H N. destruct (re_match n_2w c) as [gs|] eqn:E; auto. exfalso.
  apply (re3 _ numlang _ LE _ name_text _ LE _ numlang) in E as (w1 & t1 & y1 & t2 & z1 & -> & E); auto with cstr.
  destruct (cmp33 _ _ _ _ _ _ _ _ _ _ _ _ _ _ _ _ _ _ _ _ _ G1 G2 G3 good_num good_name good_num H E)
    as (E1 & E2 & E3 & E4 & E5).
  apply view3 in E. apply (N y1); tauto.
Qed.
Lemma some_r2w c w t p q m t' z : shape3 numlang LE (ratio_text p q) LE numlang c w t m t' z ->
  re_match r_2w c = Some [w; t; p; q; t'; z].
Proof.
  intros H. pose proof (rer3_some _ _ _ _ _ _ _ _ H) as N.
  destruct (re_match r_2w c) as [gs|] eqn:E; [|exfalso; auto]. clear N.
  apply rer3 in E as (w1 & t1 & p1 & q1 & m1 & t2 & z1 & -> & E).
  destruct (view3 _ _ _ _ _ _ _ _ _ _ _ H) as (Q1 & A1 & A2 & A3 & A4 & A5).
  destruct (view3 _ _ _ _ _ _ _ _ _ _ _ E) as (Q2 & B1 & B2 & B3 & B4 & B5).
  rewrite Q1, (num_nw w), (num_nw z), (num_nw w1), (num_nw z1) in Q2 by auto.
  pose proof (solid_nw _ (numlang_solid _ A1)). pose proof (solid_nw _ (numlang_solid _ B1)).
  pose proof (good_ratio _ _ _ A3). pose proof (good_ratio _ _ _ B3).
  pose proof (solid_nw _ (numlang_solid _ A5)). pose proof (solid_nw _ (numlang_solid _ B5)).
  apply (cut _ _ _ _ _ _ LE LE) in Q2 as (-> & -> & Q2 & _); try tauto; try (eapply noeq_app; [|eassumption]; tauto).
  apply (cut _ _ _ _ _ _ LE LE) in Q2 as (Q2 & -> & -> & _); try tauto; try (apply opfree_noeq; tauto).
  destruct (ratio_unique _ _ _ _ _ _ A3 B3 Q2). now subst.
Qed.
Lemma none_r2w P o Q ob T c w t y tb z : good P -> good Q -> good T -> shape3 P o Q ob T c w t y tb z ->
  (forall p q m, o = LE -> ob = LE -> ratio_text p q m -> nw y = nw m -> False) -> re_match r_2w c = None.
Proof.
  intros G1 G2 G3 H N. destruct (re_match r_2w c) as [gs|] eqn:E; auto. exfalso.
  apply rer3 in E as (w1 & t1 & p1 & q1 & m1 & t2 & z1 & -> & E).
  destruct (cmp33 _ _ _ _ _ _ _ _ _ _ _ _ _ _ _ _ _ _ _ _ _ G1 G2 G3 good_num (good_ratio p1 q1) good_num H E)
    as (E1 & E2 & E3 & E4 & E5).
  apply view3 in E. apply (N p1 q1 m1); tauto.
Qed.

(** ** From sentences to shapes. *)
Definition side_prop (s : side) : text -> Prop := side_text s.
Inductive skind : side -> (text -> Prop) -> text -> Prop :=
| sk_num r w : numeral w r -> skind (Num r) numlang w
| sk_par p : name_text p -> skind (Par (str_of p)) name_text p
| sk_quo p q m : ratio_text p q m -> skind (Quo (str_of p) (str_of q)) (ratio_text p q) m.
Lemma skind_of s t : side_text s t -> exists P, skind s P t /\ P t /\ good P.
Proof.
  intros H; inv H.
  - exists numlang. split; [now constructor|]. split; auto with cstr. eapply numeral_numlang; eauto.
  - exists name_text. split; [now constructor|]. auto with cstr.
  - assert (ratio_text p q (p ++ s1 ++ ch 47 :: s2 ++ q)) by (exists s1, s2; auto).
    exists (ratio_text p q). split; [now constructor|]. auto with cstr.
Qed.
Lemma written2 a o b c : written (Two a o b) c ->
  exists P Q w t y, skind a P w /\ skind b Q y /\ good P /\ good Q /\ shape2 P o Q c w t y.
Proof.
  intros H; inv H.
  match goal with Ha : side_text a ?x, Hb : side_text b ?y, Hr : rel_text o ?t |- _ =>
    destruct (skind_of _ _ Ha) as (P & K & HP & G); destruct (skind_of _ _ Hb) as (Q & K' & HQ & G');
    exists P, Q, x, t, y end.
  repeat (split; auto). do 4 eexists. split; [reflexivity|]. auto 10.
Qed.
Lemma written3 a o b o' d c : written (Three a o b o' d) c ->
  exists P Q T w t y t' z, skind a P w /\ skind b Q y /\ skind d T z /\ good P /\ good Q /\ good T /\
    shape3 P o Q o' T c w t y t' z.
Proof.
  intros H; inv H.
  match goal with Ha : side_text a ?x, Hb : side_text b ?y, Hd : side_text d ?z, Hr : rel_text o ?t,
    Hr' : rel_text o' ?t' |- _ =>
    destruct (skind_of _ _ Ha) as (P & K & HP & G); destruct (skind_of _ _ Hb) as (Q & K' & HQ & G');
    destruct (skind_of _ _ Hd) as (T & K2 & HT & G2); exists P, Q, T, x, t, y, t', z end.
  repeat (split; auto). do 6 eexists. split; [reflexivity|]. auto 12.
Qed.
Lemma las p : list_ascii_of_string (str_of p) = p.
Proof. apply list_ascii_of_string_of_list_ascii. Qed.
Lemma with_number_ok w r k : numeral w r -> with_number w k = k r.
Proof. intros H. unfold with_number. now rewrite (numeral_asfloat _ _ H). Qed.
Lemma hold_upper p r v : holds (Fixed p None (Some (Fin r))) v <-> v p <= r.
Proof. cbn. destruct (Rle_dec (v p) r); intuition (try congruence). Qed.
Lemma hold_lower p r v : holds (Fixed p (Some (Fin r)) None) v <-> r <= v p.
Proof. cbn. destruct (Rle_dec r (v p)); intuition (try congruence). Qed.
Lemma hold_both p r r' v : holds (Fixed p (Some (Fin r)) (Some (Fin r'))) v <-> r <= v p /\ v p <= r'.
Proof. cbn. destruct (Rle_dec r (v p)), (Rle_dec (v p) r'); intuition (try congruence). Qed.
Lemma hold_rupper p q r v : holds (Ratio p q None (Some r)) v <-> v p / v q <= r.
Proof.
  cbn. unfold ratio_ok. split; [intros (_ & H); auto|]. intros H; split; intros x E; [discriminate|].
  injection E as <-. auto.
Qed.
Lemma hold_rlower p q r v : holds (Ratio p q (Some r) None) v <-> r <= v p / v q.
Proof.
  cbn. unfold ratio_ok. split; [intros (H & _); auto|]. intros H; split; intros x E; [|discriminate].
  injection E as <-. auto.
Qed.
Lemma hold_rboth p q r r' v : holds (Ratio p q (Some r) (Some r')) v <-> r <= v p / v q /\ v p / v q <= r'.
Proof.
  cbn. unfold ratio_ok. split; [intros (H & H'); auto|]. intros (H & H'); split; intros x E; injection E as <-; auto.
Qed.

(** What each understood sentence becomes. *)
Definition translation (s : sentence) : option cspec :=
  match s with
  | Two (Par p) LE (Num r) | Two (Num r) GE (Par p) => Some (Fixed p None (Some (Fin r)))
  | Two (Par p) GE (Num r) | Two (Num r) LE (Par p) => Some (Fixed p (Some (Fin r)) None)
  | Two (Par p) LE (Par q) | Two (Par q) GE (Par p) => Some (Order p q)
  | Two (Quo p q) LE (Num r) => Some (Ratio p q None (Some r))
  | Two (Quo p q) GE (Num r) => Some (Ratio p q (Some r) None)
  | Three (Num r) LE (Par p) LE (Num r') => Some (Fixed p (Some (Fin r)) (Some (Fin r')))
  | Three (Num r) LE (Quo p q) LE (Num r') => Some (Ratio p q (Some r) (Some r'))
  | _ => None
  end.
Lemma translation_means s b : translation s = Some b -> forall v, holds b v <-> true_at v s.
Proof.
  intros H v.
  destruct s as [[r|p|p q] [] [r2|p2|p2 q2]|[r|p|p q] [] [r2|p2|p2 q2] [] [r3|p3|p3 q3]]; cbn in H; try discriminate;
  injection H as <-; cbn [true_at related side_value];
  first [apply hold_upper|apply hold_lower|apply hold_both|apply hold_rupper|apply hold_rlower|apply hold_rboth|reflexivity].
Qed.
Lemma understood_translation s : understood s -> exists b, translation s = Some b.
Proof. intros H; inv H; try destruct o; cbn; eauto. Qed.

Ltac no2 H := erewrite none2; [|now eauto with cstr|now eauto with cstr|now eauto with cstr|now eauto with cstr
  |now eauto with cstr| | |exact H|]; [|now eauto with cstr|now eauto with cstr|].
Lemma understood_reads s c : understood s -> plain s -> written s c ->
  exists b, translation s = Some b /\ interpret c = Says b.
Proof.
  intros U L W. destruct (understood_translation s U) as (b & Hb). exists b. split; auto.
  inv U.
  - (* Par o Num *)
    apply written2 in W as (P & Q & w & t & y & Ka & Kb & G & G' & Sh). inv Ka. inv Kb.
    destruct (none3 _ _ _ _ _ _ _ G G' Sh) as (E1 & E2). unfold interpret. rewrite E1.
    destruct o; cbn in Hb; injection Hb as <-.
    + unfold le_n. rewrite (some2 _ name_text _ LE _ numlang _ w t y) by eauto with cstr.
      cbn [group nth Nat.sub]. now rewrite (with_number_ok y r).
    + unfold le_n at 1.
      rewrite (none2 _ name_text _ LE _ numlang _ _ _ _ _ _ _ comp_token opr_le comp_numbr good_name good_num G G' Sh)
        by (intros; discriminate).
      unfold ge_n. rewrite (some2 _ name_text _ GE _ numlang _ w t y) by eauto with cstr.
      cbn [group nth Nat.sub]. now rewrite (with_number_ok y r).
  - (* Num o Par *)
    apply written2 in W as (P & Q & w & t & y & Ka & Kb & G & G' & Sh). inv Ka. inv Kb.
    destruct (none3 _ _ _ _ _ _ _ G G' Sh) as (E1 & E2). unfold interpret. rewrite E1.
    cbn [plain plain_side] in L. rewrite las in L. destruct L as (_ & L).
    unfold le_n at 1.
    rewrite (none2 _ name_text _ LE _ numlang _ _ _ _ _ _ _ comp_token opr_le comp_numbr good_name good_num G G' Sh)
      by (intros w' y' _ _ K _ E; apply L; eapply num_not_name; eauto).
    unfold ge_n at 1.
    rewrite (none2 _ name_text _ GE _ numlang _ _ _ _ _ _ _ comp_token opr_ge comp_numbr good_name good_num G G' Sh)
      by (intros w' y' _ _ K _ E; apply L; eapply num_not_name; eauto).
    destruct o; cbn in Hb; injection Hb as <-.
    + unfold n_le. rewrite (some2 _ numlang _ LE _ name_text _ w t y) by eauto with cstr.
      cbn [group nth Nat.sub]. now rewrite (with_number_ok w r).
    + unfold n_le at 1.
      rewrite (none2 _ numlang _ LE _ name_text _ _ _ _ _ _ _ comp_numbr opr_le comp_token good_num good_name G G' Sh)
        by (intros; discriminate).
      unfold n_ge. rewrite (some2 _ numlang _ GE _ name_text _ w t y) by eauto with cstr.
      cbn [group nth Nat.sub]. now rewrite (with_number_ok w r).
  - (* Par o Par *)
    apply written2 in W as (P & Q & w & t & y & Ka & Kb & G & G' & Sh). inv Ka. inv Kb.
    destruct (none3 _ _ _ _ _ _ _ G G' Sh) as (E1 & E2). unfold interpret. rewrite E1.
    cbn [plain plain_side] in L. rewrite !las in L. destruct L as (L & L').
    unfold le_n at 1.
    rewrite (none2 _ name_text _ LE _ numlang _ _ _ _ _ _ _ comp_token opr_le comp_numbr good_name good_num G G' Sh)
      by (intros w' y' _ _ K _ E; apply L'; eapply num_not_name; eauto).
    unfold ge_n at 1.
    rewrite (none2 _ name_text _ GE _ numlang _ _ _ _ _ _ _ comp_token opr_ge comp_numbr good_name good_num G G' Sh)
      by (intros w' y' _ _ K _ E; apply L'; eapply num_not_name; eauto).
    unfold n_le at 1.
    rewrite (none2 _ numlang _ LE _ name_text _ _ _ _ _ _ _ comp_numbr opr_le comp_token good_num good_name G G' Sh)
      by (intros w' y' _ K _ E _; apply L; eapply num_not_name; eauto).
    unfold n_ge at 1.
    rewrite (none2 _ numlang _ GE _ name_text _ _ _ _ _ _ _ comp_numbr opr_ge comp_token good_num good_name G G' Sh)
      by (intros w' y' _ K _ E _; apply L; eapply num_not_name; eauto).
    destruct o; cbn in Hb; injection Hb as <-.
    + unfold p_le. now rewrite (some2 _ name_text _ LE _ name_text _ w t y) by eauto with cstr.
    + unfold p_le at 1.
      rewrite (none2 _ name_text _ LE _ name_text _ _ _ _ _ _ _ comp_token opr_le comp_token good_name good_name G G' Sh)
        by (intros; discriminate).
      unfold p_ge. now rewrite (some2 _ name_text _ GE _ name_text _ w t y) by eauto with cstr.
  - (* Quo o Num *)
    apply written2 in W as (P & Q & w & t & y & Ka & Kb & G & G' & Sh). inv Ka. inv Kb.
    destruct (none3 _ _ _ _ _ _ _ G G' Sh) as (E1 & E2). unfold interpret. rewrite E1.
    cbn [plain plain_side] in L. rewrite !las in L. destruct L as ((L & L') & _).
    pose proof (view2 _ _ _ _ _ _ _ Sh) as (_ & RT & _ & _).
    unfold le_n at 1.
    rewrite (none2 _ name_text _ LE _ numlang _ _ _ _ _ _ _ comp_token opr_le comp_numbr good_name good_num G G' Sh)
      by (intros w' y' _ K _ E _; eapply name_not_ratio; eauto).
    unfold ge_n at 1.
    rewrite (none2 _ name_text _ GE _ numlang _ _ _ _ _ _ _ comp_token opr_ge comp_numbr good_name good_num G G' Sh)
      by (intros w' y' _ K _ E _; eapply name_not_ratio; eauto).
    unfold n_le at 1.
    rewrite (none2 _ numlang _ LE _ name_text _ _ _ _ _ _ _ comp_numbr opr_le comp_token good_num good_name G G' Sh)
      by (intros w' y' _ K _ E _; apply L; eapply num_not_ratio; eauto).
    unfold n_ge at 1.
    rewrite (none2 _ numlang _ GE _ name_text _ _ _ _ _ _ _ comp_numbr opr_ge comp_token good_num good_name G G' Sh)
      by (intros w' y' _ K _ E _; apply L; eapply num_not_ratio; eauto).
    unfold p_le at 1.
    rewrite (none2 _ name_text _ LE _ name_text _ _ _ _ _ _ _ comp_token opr_le comp_token good_name good_name G G' Sh)
      by (intros w' y' _ K _ E _; eapply name_not_ratio; eauto).
    unfold p_ge at 1.
    rewrite (none2 _ name_text _ GE _ name_text _ _ _ _ _ _ _ comp_token opr_ge comp_token good_name good_name G G' Sh)
      by (intros w' y' _ K _ E _; eapply name_not_ratio; eauto).
    destruct o; cbn in Hb; injection Hb as <-.
    + unfold r_le. rewrite (some_r2 _ LE p0 q0 w t y) by eauto with cstr.
      cbn [group nth Nat.sub]. now rewrite (with_number_ok y r).
    + unfold r_le at 1. rewrite (none_r2 _ LE _ _ _ _ _ _ _ opr_le G G' Sh) by (intros; discriminate).
      unfold r_ge. rewrite (some_r2 _ GE p0 q0 w t y) by eauto with cstr.
      cbn [group nth Nat.sub]. now rewrite (with_number_ok y r).
  - (* Num LE Par LE Num *)
    apply written3 in W as (P & Q & T & w & t & y & t' & z & Ka & Kb & Kc & G & G' & G2 & Sh). inv Ka. inv Kb. inv Kc.
    cbn in Hb; injection Hb as <-. unfold interpret. rewrite (some_n2w _ _ _ _ _ _ Sh).
    cbn [group nth Nat.sub]. now rewrite (with_number_ok w r), (with_number_ok z r').
  - (* Num LE Quo LE Num *)
    apply written3 in W as (P & Q & T & w & t & y & t' & z & Ka & Kb & Kc & G & G' & G2 & Sh). inv Ka. inv Kb. inv Kc.
    pose proof (view3 _ _ _ _ _ _ _ _ _ _ _ Sh) as (_ & _ & _ & RT & _ & _).
    cbn in Hb; injection Hb as <-. unfold interpret.
    rewrite (none_n2w _ _ _ _ _ _ _ _ _ _ _ G G' G2 Sh) by (intros y' _ _ K E; eapply name_not_ratio; eauto).
    unfold le_n, ge_n, n_le, n_ge, p_le, p_ge, r_le, r_ge.
    rewrite !(none2_of3 token name_text _ LE numbr numlang _ _ _ _ _ _ _ _ _ _ _ comp_token opr_le comp_numbr good_name good_num G G' G2 Sh).
    rewrite !(none2_of3 token name_text _ GE numbr numlang _ _ _ _ _ _ _ _ _ _ _ comp_token opr_ge comp_numbr good_name good_num G G' G2 Sh).
    rewrite !(none2_of3 numbr numlang _ LE token name_text _ _ _ _ _ _ _ _ _ _ _ comp_numbr opr_le comp_token good_num good_name G G' G2 Sh).
    rewrite !(none2_of3 numbr numlang _ GE token name_text _ _ _ _ _ _ _ _ _ _ _ comp_numbr opr_ge comp_token good_num good_name G G' G2 Sh).
    rewrite !(none2_of3 token name_text _ LE token name_text _ _ _ _ _ _ _ _ _ _ _ comp_token opr_le comp_token good_name good_name G G' G2 Sh).
    rewrite !(none2_of3 token name_text _ GE token name_text _ _ _ _ _ _ _ _ _ _ _ comp_token opr_ge comp_token good_name good_name G G' G2 Sh).
    rewrite (none_r2_of3 _ LE _ _ _ _ _ _ _ _ _ _ _ opr_le G G' G2 Sh).
    rewrite (none_r2_of3 _ GE _ _ _ _ _ _ _ _ _ _ _ opr_ge G G' G2 Sh).
    rewrite (some_r2w _ _ _ _ _ _ _ _ Sh).
    cbn [group nth Nat.sub]. now rewrite (with_number_ok w r), (with_number_ok z r').
Qed.

(** ** Everything that is read is a sentence with that meaning. *)
Lemma with_number_says w k b : numlang w -> with_number w k = Says b -> exists r, numeral w r /\ k r = Says b.
Proof.
  intros H. unfold with_number. destruct (asfloat w) as [r|] eqn:E; [|discriminate].
  intros K. exists r. split; auto. now apply asfloat_numeral.
Qed.
Lemma write2 a o b P Q c w t y : shape2 P o Q c w t y -> side_text a w -> side_text b y -> written (Two a o b) c.
Proof.
  intros (s1 & s2 & s3 & s4 & -> & K1 & K2 & K3 & H2 & K4 & K5 & K6) Ha Hb. now constructor.
Qed.
Lemma write3 a o b o' d P Q T c w t y t' z : shape3 P o Q o' T c w t y t' z ->
  side_text a w -> side_text b y -> side_text d z -> written (Three a o b o' d) c.
Proof.
  intros (s1 & s2 & s3 & s4 & s5 & s6 & -> & K1 & K2 & K3 & H2 & K4 & K5 & K6 & H4 & K7 & K8 & K9) Ha Hb Hd.
  now constructor.
Qed.
Lemma ratio_side p q m : ratio_text p q m -> side_text (Quo (str_of p) (str_of q)) m.
Proof. intros (s1 & s2 & -> & H & H' & S1 & S2). now constructor. Qed.
Lemma read_is_sentence c b : interpret c = Says b -> exists s, understood s /\ written s c /\ translation s = Some b.
Proof.
  unfold interpret.
  destruct (re_match n_2w c) as [gs|] eqn:E; [clear - E|clear E].
  { apply (re3 _ numlang _ LE _ name_text _ LE _ numlang) in E as (w & t & y & t' & z & -> & E); auto with cstr.
    cbn [group nth Nat.sub]. destruct (view3 _ _ _ _ _ _ _ _ _ _ _ E) as (_ & A1 & A2 & A3 & A4 & A5).
    intros H. apply with_number_says in H as (r & Hr & H); auto. apply with_number_says in H as (r' & Hr' & H); auto.
    injection H as <-. exists (Three (Num r) LE (Par (str_of y)) LE (Num r')).
    split; [constructor|]. split; [|reflexivity]. eapply write3; eauto; now constructor. }
  destruct (re_match le_n c) as [gs|] eqn:E; [clear - E|clear E].
  { apply (re2 _ name_text _ LE _ numlang) in E as (w & t & y & -> & E); auto with cstr.
    cbn [group nth Nat.sub]. destruct (view2 _ _ _ _ _ _ _ E) as (_ & A1 & A2 & A3).
    intros H. apply with_number_says in H as (r & Hr & H); auto. injection H as <-.
    exists (Two (Par (str_of w)) LE (Num r)). split; [constructor|]. split; [|reflexivity].
    eapply write2; eauto; now constructor. }
  destruct (re_match ge_n c) as [gs|] eqn:E; [clear - E|clear E].
  { apply (re2 _ name_text _ GE _ numlang) in E as (w & t & y & -> & E); auto with cstr.
    cbn [group nth Nat.sub]. destruct (view2 _ _ _ _ _ _ _ E) as (_ & A1 & A2 & A3).
    intros H. apply with_number_says in H as (r & Hr & H); auto. injection H as <-.
    exists (Two (Par (str_of w)) GE (Num r)). split; [constructor|]. split; [|reflexivity].
    eapply write2; eauto; now constructor. }
  destruct (re_match n_le c) as [gs|] eqn:E; [clear - E|clear E].
  { apply (re2 _ numlang _ LE _ name_text) in E as (w & t & y & -> & E); auto with cstr.
    cbn [group nth Nat.sub]. destruct (view2 _ _ _ _ _ _ _ E) as (_ & A1 & A2 & A3).
    intros H. apply with_number_says in H as (r & Hr & H); auto. injection H as <-.
    exists (Two (Num r) LE (Par (str_of y))). split; [constructor|]. split; [|reflexivity].
    eapply write2; eauto; now constructor. }
  destruct (re_match n_ge c) as [gs|] eqn:E; [clear - E|clear E].
  { apply (re2 _ numlang _ GE _ name_text) in E as (w & t & y & -> & E); auto with cstr.
    cbn [group nth Nat.sub]. destruct (view2 _ _ _ _ _ _ _ E) as (_ & A1 & A2 & A3).
    intros H. apply with_number_says in H as (r & Hr & H); auto. injection H as <-.
    exists (Two (Num r) GE (Par (str_of y))). split; [constructor|]. split; [|reflexivity].
    eapply write2; eauto; now constructor. }
  destruct (re_match p_le c) as [gs|] eqn:E; [clear - E|clear E].
  { apply (re2 _ name_text _ LE _ name_text) in E as (w & t & y & -> & E); auto with cstr.
    cbn [group nth Nat.sub]. destruct (view2 _ _ _ _ _ _ _ E) as (_ & A1 & A2 & A3).
    intros H. injection H as <-.
    exists (Two (Par (str_of w)) LE (Par (str_of y))). split; [constructor|]. split; [|reflexivity].
    eapply write2; eauto; now constructor. }
  destruct (re_match p_ge c) as [gs|] eqn:E; [clear - E|clear E].
  { apply (re2 _ name_text _ GE _ name_text) in E as (w & t & y & -> & E); auto with cstr.
    cbn [group nth Nat.sub]. destruct (view2 _ _ _ _ _ _ _ E) as (_ & A1 & A2 & A3).
    intros H. injection H as <-.
    exists (Two (Par (str_of w)) GE (Par (str_of y))). split; [constructor|]. split; [|reflexivity].
    eapply write2; eauto; now constructor. }
  destruct (re_match r_le c) as [gs|] eqn:E; [clear - E|clear E].
  { apply (rer2 _ LE) in E as (p & q & m & t & w & -> & E); auto with cstr.
    cbn [group nth Nat.sub]. destruct (view2 _ _ _ _ _ _ _ E) as (_ & A1 & A2 & A3).
    intros H. apply with_number_says in H as (r & Hr & H); auto. injection H as <-.
    exists (Two (Quo (str_of p) (str_of q)) LE (Num r)). split; [constructor|]. split; [|reflexivity].
    eapply write2; eauto; [now apply ratio_side|now constructor]. }
  destruct (re_match r_ge c) as [gs|] eqn:E; [clear - E|clear E].
  { apply (rer2 _ GE) in E as (p & q & m & t & w & -> & E); auto with cstr.
    cbn [group nth Nat.sub]. destruct (view2 _ _ _ _ _ _ _ E) as (_ & A1 & A2 & A3).
    intros H. apply with_number_says in H as (r & Hr & H); auto. injection H as <-.
    exists (Two (Quo (str_of p) (str_of q)) GE (Num r)). split; [constructor|]. split; [|reflexivity].
    eapply write2; eauto; [now apply ratio_side|now constructor]. }
  destruct (re_match r_2w c) as [gs|] eqn:E; [clear - E|clear E; discriminate].
  { apply rer3 in E as (w & t & p & q & m & t' & z & -> & E).
    cbn [group nth Nat.sub]. destruct (view3 _ _ _ _ _ _ _ _ _ _ _ E) as (_ & A1 & A2 & A3 & A4 & A5).
    intros H. apply with_number_says in H as (r & Hr & H); auto. apply with_number_says in H as (r' & Hr' & H); auto.
    injection H as <-. exists (Three (Num r) LE (Quo (str_of p) (str_of q)) LE (Num r')).
    split; [constructor|]. split; [|reflexivity].
    eapply write3; eauto; [now constructor|now apply ratio_side|now constructor]. }
Qed.

(** ** Sentences that are refused. *)
Lemma refuse3 a o b o' d c : written (Three a o b o' d) c -> ~ (o = LE /\ o' = LE) -> interpret c = NotAConstraint.
Proof.
  intros W N. apply written3 in W as (P & Q & T & w & t & y & t' & z & Ka & Kb & Kc & G & G' & G2 & Sh).
  unfold interpret.
  rewrite (none_n2w _ _ _ _ _ _ _ _ _ _ _ G G' G2 Sh) by (intros; tauto).
  unfold le_n, ge_n, n_le, n_ge, p_le, p_ge, r_le, r_ge.
  rewrite !(none2_of3 token name_text _ LE numbr numlang _ _ _ _ _ _ _ _ _ _ _ comp_token opr_le comp_numbr good_name good_num G G' G2 Sh).
  rewrite !(none2_of3 token name_text _ GE numbr numlang _ _ _ _ _ _ _ _ _ _ _ comp_token opr_ge comp_numbr good_name good_num G G' G2 Sh).
  rewrite !(none2_of3 numbr numlang _ LE token name_text _ _ _ _ _ _ _ _ _ _ _ comp_numbr opr_le comp_token good_num good_name G G' G2 Sh).
  rewrite !(none2_of3 numbr numlang _ GE token name_text _ _ _ _ _ _ _ _ _ _ _ comp_numbr opr_ge comp_token good_num good_name G G' G2 Sh).
  rewrite !(none2_of3 token name_text _ LE token name_text _ _ _ _ _ _ _ _ _ _ _ comp_token opr_le comp_token good_name good_name G G' G2 Sh).
  rewrite !(none2_of3 token name_text _ GE token name_text _ _ _ _ _ _ _ _ _ _ _ comp_token opr_ge comp_token good_name good_name G G' G2 Sh).
  rewrite (none_r2_of3 _ LE _ _ _ _ _ _ _ _ _ _ _ opr_le G G' G2 Sh).
  rewrite (none_r2_of3 _ GE _ _ _ _ _ _ _ _ _ _ _ opr_ge G G' G2 Sh).
  now rewrite (none_r2w _ _ _ _ _ _ _ _ _ _ _ G G' G2 Sh) by (intros; tauto).
Qed.
(** A ratio on the right. *)
Lemma refuse_quo_right a o p q c : written (Two a o (Quo p q)) c -> plain_side (Quo p q) -> interpret c = NotAConstraint.
Proof.
  intros W L. apply written2 in W as (P & Q & w & t & y & Ka & Kb & G & G' & Sh). inv Kb.
  destruct (none3 _ _ _ _ _ _ _ G G' Sh) as (E1 & E2). unfold interpret. rewrite E1.
  cbn [plain_side] in L. rewrite !las in L. destruct L as (L & L').
  pose proof (view2 _ _ _ _ _ _ _ Sh) as (_ & _ & _ & RT).
  unfold le_n, ge_n, n_le, n_ge, p_le, p_ge, r_le, r_ge.
  rewrite (none2 _ name_text _ LE _ numlang _ _ _ _ _ _ _ comp_token opr_le comp_numbr good_name good_num G G' Sh)
    by (intros w' y' _ _ K _ E; apply L; eapply num_not_ratio; eauto).
  rewrite (none2 _ name_text _ GE _ numlang _ _ _ _ _ _ _ comp_token opr_ge comp_numbr good_name good_num G G' Sh)
    by (intros w' y' _ _ K _ E; apply L; eapply num_not_ratio; eauto).
  rewrite (none2 _ numlang _ LE _ name_text _ _ _ _ _ _ _ comp_numbr opr_le comp_token good_num good_name G G' Sh)
    by (intros w' y' _ _ K _ E; eapply name_not_ratio; eauto).
  rewrite (none2 _ numlang _ GE _ name_text _ _ _ _ _ _ _ comp_numbr opr_ge comp_token good_num good_name G G' Sh)
    by (intros w' y' _ _ K _ E; eapply name_not_ratio; eauto).
  rewrite (none2 _ name_text _ LE _ name_text _ _ _ _ _ _ _ comp_token opr_le comp_token good_name good_name G G' Sh)
    by (intros w' y' _ _ K _ E; eapply name_not_ratio; eauto).
  rewrite (none2 _ name_text _ GE _ name_text _ _ _ _ _ _ _ comp_token opr_ge comp_token good_name good_name G G' Sh)
    by (intros w' y' _ _ K _ E; eapply name_not_ratio; eauto).
  rewrite (none_r2 _ LE _ _ _ _ _ _ _ opr_le G G' Sh)
    by (intros p' q' m y' _ _ K _ E; apply L; eapply num_not_ratio; eauto).
  rewrite (none_r2 _ GE _ _ _ _ _ _ _ opr_ge G G' Sh)
    by (intros p' q' m y' _ _ K _ E; apply L; eapply num_not_ratio; eauto).
  now rewrite E2.
Qed.
