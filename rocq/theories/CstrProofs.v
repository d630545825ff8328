(** Proofs about constraint strings. *)
From Verif Require Import ParamModel ConsModel ConsSpec CstrModel CstrSpec.
From Coq Require Import Ascii.
Open Scope R_scope.
#[global] Arguments ch : simpl never.
#[global] Arguments cd : simpl never.
#[global] Arguments chr : simpl never.

(** ** Characters. *)
Lemma chr_spec n c : chr n c = true <-> cd c = n.
Proof. unfold chr, code, cd. apply Nat.eqb_eq. Qed.
Lemma chr_ch n c : (n < 256)%nat -> chr n c = true -> c = ch n.
Proof. intros H H0. apply chr_spec in H0. unfold cd, ch in *. rewrite <- H0. symmetry. apply ascii_nat_embedding. Qed.
Lemma cd_ch n : (n < 256)%nat -> cd (ch n) = n.
Proof. intros. unfold cd, ch. now apply nat_ascii_embedding. Qed.
Lemma rng_spec a b c : rng a b c = true <-> (a <= cd c <= b)%nat.
Proof. unfold rng, code, cd. rewrite andb_true_iff, !Nat.leb_le. tauto. Qed.
Lemma is_space_spec c : is_space c = true <-> white c.
Proof.
  unfold is_space, white. rewrite !orb_true_iff, !rng_spec, !chr_spec. generalize (cd c); intros n. simpl. lia.
Qed.
Lemma is_digit_spec c : is_digit c = true <-> digit c.
Proof. unfold is_digit, digit. apply rng_spec. Qed.
Lemma is_name_spec c : is_name c = true <-> name_char c.
Proof.
  unfold is_name, is_word, is_digit, name_char, digit. rewrite !orb_true_iff, !rng_spec, !chr_spec.
  generalize (cd c); intros n. simpl. lia.
Qed.
Lemma forall_iff {A} (P Q : A -> Prop) l : (forall x, P x <-> Q x) -> Forall P l <-> Forall Q l.
Proof. intros H; split; apply Forall_impl; intros; apply H; auto. Qed.

(** ** The matcher finds exactly the parses. *)
Inductive pr : rx -> text -> list text -> Prop :=
| pr_one c x : c x = true -> pr (One c) [x] []
| pr_opt0 c : pr (Opt c) [] []
| pr_opt1 c x : c x = true -> pr (Opt c) [x] []
| pr_star c u : Forall (fun x => c x = true) u -> pr (Star c) u []
| pr_seq a b u v cs ds : pr a u cs -> pr b v ds -> pr (Seq a b) (u ++ v) (cs ++ ds)
| pr_alt1 a b u cs : pr a u cs -> pr (Alt a b) u cs
| pr_alt2 a b u cs : pr b u cs -> pr (Alt a b) u cs
| pr_grp a u cs : pr a u cs -> pr (Grp a) u (cs ++ [u]).

Lemma star_sound {A} c s (k : text -> option A) x : star c s k = Some x ->
  exists u s', s = u ++ s' /\ Forall (fun x => c x = true) u /\ k s' = Some x.
Proof.
  induction s as [|y s IH]; cbn; intros H; [exists [], []; auto|].
  destruct (c y) eqn:E.
  - destruct (star c s k) eqn:E2.
    + inversion H; subst. destruct (IH eq_refl) as (u & s' & -> & Hu & Hk).
      exists (y :: u), s'. repeat split; auto.
    + exists [], (y :: s); auto.
  - exists [], (y :: s); auto.
Qed.
Lemma star_complete {A} c u s' (k : text -> option A) :
  Forall (fun x => c x = true) u -> k s' <> None -> star c (u ++ s') k <> None.
Proof.
  intros Hu Hk; induction Hu as [|y u Hy Hu IH]; cbn.
  - destruct s' as [|y s]; cbn; auto. destruct (c y); auto. destruct (star c s k); auto. discriminate.
  - rewrite Hy. destruct (star c (u ++ s') k); [discriminate|congruence].
Qed.
Lemma rmatch_sound {A} r : forall s cs (k : text -> list text -> option A) x,
  rmatch r s cs k = Some x -> exists u s' ds, s = u ++ s' /\ pr r u ds /\ k s' (cs ++ ds) = Some x.
Proof.
  induction r; cbn; intros s cs k x H.
  - destruct s as [|y s]; [discriminate|]. destruct (c y) eqn:E; [|discriminate].
    exists [y], s, []. rewrite (app_nil_r cs). repeat split; auto. now constructor.
  - destruct s as [|y s]; [exists [], [], []; rewrite (app_nil_r cs); repeat split; auto; apply pr_opt0|].
    destruct (c y) eqn:E; [|exists [], (y :: s), []; rewrite (app_nil_r cs); repeat split; auto; apply pr_opt0].
    destruct (k s cs) eqn:E2.
    + inversion H; subst. exists [y], s, []. rewrite (app_nil_r cs). repeat split; auto. now constructor.
    + exists [], (y :: s), []; rewrite (app_nil_r cs); repeat split; auto; apply pr_opt0.
  - apply star_sound in H. destruct H as (u & s' & -> & Hu & Hk).
    exists u, s', []. rewrite (app_nil_r cs). repeat split; auto. now constructor.
  - apply IHr1 in H. destruct H as (u & s' & ds & -> & Hp & H).
    apply IHr2 in H. destruct H as (v & s2 & es & -> & Hq & H).
    exists (u ++ v), s2, (ds ++ es). rewrite !app_assoc in *. repeat split; auto. now constructor.
  - destruct (rmatch r1 s cs k) eqn:E.
    + inversion H; subst. apply IHr1 in E. destruct E as (u & s' & ds & -> & Hp & Hk).
      exists u, s', ds. repeat split; auto. now apply pr_alt1.
    + apply IHr2 in H. destruct H as (u & s' & ds & -> & Hp & Hk).
      exists u, s', ds. repeat split; auto. now apply pr_alt2.
  - apply IHr in H. destruct H as (u & s' & ds & -> & Hp & Hk).
    exists u, s', (ds ++ [u]). split; auto. split; [now constructor|]. rewrite <- Hk. f_equal.
    rewrite <- !app_assoc. do 3 f_equal.
    rewrite app_length. replace (length u + length s' - length s')%nat with (length u + 0)%nat by lia.
    rewrite firstn_app_2. cbn. now rewrite app_nil_r.
Qed.
Lemma rmatch_complete {A} r u ds : pr r u ds -> forall s' cs (k : text -> list text -> option A),
  k s' (cs ++ ds) <> None -> rmatch r (u ++ s') cs k <> None.
Proof.
  induction 1; cbn; intros s' es k Hk; rewrite ?app_nil_r in Hk.
  - now rewrite H.
  - destruct s' as [|y s]; auto. destruct (c y); auto. destruct (k s es); auto. discriminate.
  - rewrite H. destruct (k s' es); [discriminate|congruence].
  - now apply star_complete.
  - rewrite <- app_assoc. apply IHpr1. apply IHpr2. now rewrite <- app_assoc.
  - pose proof (IHpr s' es k Hk). destruct (rmatch a (u ++ s') es k); [discriminate|congruence].
  - pose proof (IHpr s' es k Hk). destruct (rmatch a (u ++ s') es k); [discriminate|auto].
  - apply IHpr. intros E. apply Hk. rewrite <- E. f_equal. rewrite <- !app_assoc. do 3 f_equal.
    rewrite app_length. replace (length u + length s' - length s')%nat with (length u + 0)%nat by lia.
    rewrite firstn_app_2. cbn. now rewrite app_nil_r.
Qed.
Lemma at_end_white s : at_end s = true -> spaces s.
Proof.
  destruct s as [|c [|d s]]; cbn; try discriminate; intros; [constructor|].
  constructor; [|constructor]. apply chr_spec in H. unfold white. rewrite H. cbn; auto.
Qed.
Lemma re_match_sound r c gs : re_match r c = Some gs -> exists u s, c = u ++ s /\ pr r u gs /\ spaces s.
Proof.
  unfold re_match. intros H. apply rmatch_sound in H. destruct H as (u & s & ds & -> & Hp & Hk).
  cbn in Hk. destruct (at_end s) eqn:E; [|discriminate]. inversion Hk; subst.
  exists u, s. repeat split; auto. now apply at_end_white.
Qed.
Lemma re_match_complete r c gs : pr r c gs -> re_match r c <> None.
Proof.
  intros H. rewrite <- (app_nil_r c). unfold re_match.
  eapply rmatch_complete; eauto. cbn. discriminate.
Qed.

(** ** The parts of the patterns. *)
Ltac inv H := inversion H; subst; clear H.
Lemma pr_star_iff c u cs : pr (Star c) u cs <-> Forall (fun x => c x = true) u /\ cs = [].
Proof. split; [intros H; inv H; auto|intros (H & ->); now constructor]. Qed.
Lemma pr_one_iff c u cs : pr (One c) u cs <-> (exists x, u = [x] /\ c x = true) /\ cs = [].
Proof. split; [intros H; inv H; eauto|intros ((x & -> & H) & ->); now constructor]. Qed.
Lemma pr_opt_iff c u cs : pr (Opt c) u cs <-> (u = [] \/ exists x, u = [x] /\ c x = true) /\ cs = [].
Proof.
  split; [intros H; inv H; eauto|intros ([->|(x & -> & H)] & ->); now constructor].
Qed.
Lemma pr_seq_iff a b u cs : pr (Seq a b) u cs <->
  exists v w ds es, u = v ++ w /\ cs = ds ++ es /\ pr a v ds /\ pr b w es.
Proof.
  split; [intros H; inv H; eauto 10|intros (v & w & ds & es & -> & -> & H & H'); now constructor].
Qed.
Lemma pr_alt_iff a b u cs : pr (Alt a b) u cs <-> pr a u cs \/ pr b u cs.
Proof. split; [intros H; inv H; auto|intros [H|H]; [now apply pr_alt1|now apply pr_alt2]]. Qed.
Lemma pr_grp_iff a u cs : pr (Grp a) u cs <-> exists ds, cs = ds ++ [u] /\ pr a u ds.
Proof. split; [intros H; inv H; eauto|intros (ds & -> & H); now constructor]. Qed.

Fixpoint nogroup (r : rx) : Prop :=
  match r with Seq a b | Alt a b => nogroup a /\ nogroup b | Grp _ => False | _ => True end.
Lemma nogroup_pr r u cs : pr r u cs -> nogroup r -> cs = [].
Proof.
  induction 1; cbn; intros N; try tauto; auto.
  destruct N. rewrite IHpr1, IHpr2; auto.
Qed.
Lemma spaces_iff s : spaces s <-> Forall (fun x => is_space x = true) s.
Proof. unfold spaces. symmetry. apply forall_iff. apply is_space_spec. Qed.
Lemma pr_spaced r u cs : nogroup r -> pr (spaced r) u cs <->
  exists s1 w s2, u = s1 ++ w ++ s2 /\ cs = [w] /\ spaces s1 /\ pr r w [] /\ spaces s2.
Proof.
  intros N. unfold spaced. rewrite pr_seq_iff. split.
  - intros (v & w & ds & es & -> & -> & H & H'). apply pr_star_iff in H as (H & ->).
    apply pr_seq_iff in H' as (w1 & w2 & fs & gs & -> & -> & G & K).
    apply pr_star_iff in K as (K & ->). apply pr_grp_iff in G as (ds & -> & G).
    pose proof (nogroup_pr _ _ _ G N); subst.
    exists v, w1, w2. rewrite !spaces_iff. auto.
  - intros (s1 & w & s2 & -> & -> & H1 & H & H2). rewrite spaces_iff in *.
    exists s1, (w ++ s2), [], [w]. repeat split; auto; [now constructor|].
    apply pr_seq_iff. exists w, s2, [w], []. repeat split; auto; [|now constructor].
    apply (pr_grp _ _ []). auto.
Qed.

Definition numlang (w : text) : Prop := pr (Alt rx_decimal rx_fraction) w [].
(** A sub-pattern with one group: the text it matches is [P]-text between blanks. *)
Definition comp (r : rx) (P : text -> Prop) : Prop := forall u cs, pr r u cs <->
  exists s1 w s2, u = s1 ++ w ++ s2 /\ cs = [w] /\ spaces s1 /\ P w /\ spaces s2.
Lemma comp_numbr : comp numbr numlang.
Proof. intros u cs. apply pr_spaced. cbn; tauto. Qed.
Lemma pr_plus c u cs : pr (Plus c) u cs <-> u <> [] /\ Forall (fun x => c x = true) u /\ cs = [].
Proof.
  unfold Plus. rewrite pr_seq_iff. split.
  - intros (v & w & ds & es & -> & -> & H & H'). apply pr_one_iff in H as ((x & -> & H) & ->).
    apply pr_star_iff in H' as (H' & ->). repeat split; [discriminate|]. constructor; auto.
  - intros (N & F & ->). destruct u as [|x u]; [congruence|]. inv F.
    exists [x], u, [], []. repeat split; auto; [now constructor|now constructor].
Qed.
Lemma comp_token : comp token name_text.
Proof.
  intros u cs. unfold token. rewrite pr_spaced by (cbn; tauto).
  split; intros (s1 & w & s2 & -> & -> & H1 & H & H2); exists s1, w, s2; repeat split; auto.
  - apply pr_plus in H. tauto.
  - apply pr_plus in H as (_ & H & _). revert H. apply Forall_impl. intros. now apply is_name_spec.
  - apply pr_plus. destruct H as (N & F). repeat split; auto. revert F. apply Forall_impl.
    intros. now apply is_name_spec.
Qed.
Definition opr (r : rx) (o : rel) : Prop := forall u cs, pr r u cs <-> rel_text o u /\ cs = [u].
Lemma chr_iff n c : (n < 256)%nat -> (chr n c = true <-> c = ch n).
Proof. intros H; split; [now apply chr_ch|intros ->]. apply chr_spec. now apply cd_ch. Qed.
Lemma opr_le : opr rx_le LE.
Proof.
  intros u cs. unfold rx_le. rewrite pr_grp_iff. split.
  - intros (ds & -> & H). apply pr_alt_iff in H as [H|H].
    + apply pr_seq_iff in H as (v & w & d1 & d2 & -> & -> & H & H').
      apply pr_one_iff in H as ((x & -> & H) & ->). apply pr_one_iff in H' as ((y & -> & H') & ->).
      apply chr_iff in H; [|lia]. apply chr_iff in H'; [|lia]. subst. split; auto. constructor.
    + apply pr_one_iff in H as ((x & -> & H) & ->). apply chr_iff in H; [|lia]. subst. split; auto. constructor.
  - intros (H & ->). exists []. split; auto. apply pr_alt_iff. inv H.
    + right. constructor. now apply chr_iff; [lia|].
    + left. apply (pr_seq _ _ [ch 60] [ch 61] [] []); constructor; (apply chr_iff; [lia|auto]).
Qed.
Lemma opr_ge : opr rx_ge GE.
Proof.
  intros u cs. unfold rx_ge. rewrite pr_grp_iff. split.
  - intros (ds & -> & H). apply pr_alt_iff in H as [H|H].
    + apply pr_seq_iff in H as (v & w & d1 & d2 & -> & -> & H & H').
      apply pr_one_iff in H as ((x & -> & H) & ->). apply pr_one_iff in H' as ((y & -> & H') & ->).
      apply chr_iff in H; [|lia]. apply chr_iff in H'; [|lia]. subst. split; auto. constructor.
    + apply pr_one_iff in H as ((x & -> & H) & ->). apply chr_iff in H; [|lia]. subst. split; auto. constructor.
  - intros (H & ->). exists []. split; auto. apply pr_alt_iff. inv H.
    + right. constructor. now apply chr_iff; [lia|].
    + left. apply (pr_seq _ _ [ch 62] [ch 61] [] []); constructor; (apply chr_iff; [lia|auto]).
Qed.

(** ** Whole patterns. *)
Definition shape2 (P : text -> Prop) o (Q : text -> Prop) (c w t y : text) : Prop :=
  exists s1 s2 s3 s4, c = s1 ++ w ++ s2 ++ t ++ s3 ++ y ++ s4 /\
    spaces s1 /\ P w /\ spaces s2 /\ rel_text o t /\ spaces s3 /\ Q y /\ spaces s4.
Lemma spaces_app a b : spaces a -> spaces b -> spaces (a ++ b).
Proof. intros. apply Forall_app; auto. Qed.
Lemma re2 A P O o B Q c gs : comp A P -> opr O o -> comp B Q ->
  re_match (Seq A (Seq O B)) c = Some gs -> exists w t y, gs = [w; t; y] /\ shape2 P o Q c w t y.
Proof.
  intros HA HO HB H. apply re_match_sound in H as (u & s & -> & H & Hs).
  apply pr_seq_iff in H as (a & b & d1 & d2 & -> & -> & H1 & H).
  apply pr_seq_iff in H as (t & b2 & d3 & d4 & -> & -> & H2 & H3).
  apply HA in H1 as (s1 & w & s2 & -> & -> & K1 & K2 & K3). apply HO in H2 as (H2 & ->).
  apply HB in H3 as (s3 & y & s4 & -> & -> & K4 & K5 & K6).
  exists w, t, y. split; auto. exists s1, s2, s3, (s4 ++ s). rewrite <- !app_assoc.
  repeat split; auto. now apply spaces_app.
Qed.
Lemma re2_some A P O o B Q c w t y : comp A P -> opr O o -> comp B Q ->
  shape2 P o Q c w t y -> re_match (Seq A (Seq O B)) c <> None.
Proof.
  intros HA HO HB (s1 & s2 & s3 & s4 & -> & K1 & K2 & K3 & H2 & K4 & K5 & K6).
  apply (re_match_complete _ _ ([w] ++ [t] ++ [y])).
  replace (s1 ++ w ++ s2 ++ t ++ s3 ++ y ++ s4) with ((s1 ++ w ++ s2) ++ t ++ (s3 ++ y ++ s4))
    by now rewrite <- !app_assoc.
  constructor; [apply HA; eauto 10|]. constructor; [apply HO; auto|apply HB; eauto 10].
Qed.
Definition shape3 (P : text -> Prop) o (Q : text -> Prop) o' (T : text -> Prop) (c w t y t' z : text) : Prop :=
  exists s1 s2 s3 s4 s5 s6, c = s1 ++ w ++ s2 ++ t ++ s3 ++ y ++ s4 ++ t' ++ s5 ++ z ++ s6 /\
    spaces s1 /\ P w /\ spaces s2 /\ rel_text o t /\ spaces s3 /\ Q y /\ spaces s4 /\
    rel_text o' t' /\ spaces s5 /\ T z /\ spaces s6.
Lemma re3 A P O o B Q O' o' C T c gs : comp A P -> opr O o -> comp B Q -> opr O' o' -> comp C T ->
  re_match (Seq A (Seq O (Seq B (Seq O' C)))) c = Some gs ->
  exists w t y t' z, gs = [w; t; y; t'; z] /\ shape3 P o Q o' T c w t y t' z.
Proof.
  intros HA HO HB HO' HC H. apply re_match_sound in H as (u & s & -> & H & Hs).
  apply pr_seq_iff in H as (a & b & d1 & d2 & -> & -> & H1 & H).
  apply pr_seq_iff in H as (t & b2 & d3 & d4 & -> & -> & H2 & H).
  apply pr_seq_iff in H as (a3 & b3 & d5 & d6 & -> & -> & H3 & H).
  apply pr_seq_iff in H as (t' & b4 & d7 & d8 & -> & -> & H4 & H5).
  apply HA in H1 as (s1 & w & s2 & -> & -> & K1 & K2 & K3). apply HO in H2 as (H2 & ->).
  apply HB in H3 as (s3 & y & s4 & -> & -> & K4 & K5 & K6). apply HO' in H4 as (H4 & ->).
  apply HC in H5 as (s5 & z & s6 & -> & -> & K7 & K8 & K9).
  exists w, t, y, t', z. split; auto. exists s1, s2, s3, s4, s5, (s6 ++ s). rewrite <- !app_assoc.
  repeat split; auto. now apply spaces_app.
Qed.
Lemma re3_some A P O o B Q O' o' C T c w t y t' z :
  comp A P -> opr O o -> comp B Q -> opr O' o' -> comp C T ->
  shape3 P o Q o' T c w t y t' z -> re_match (Seq A (Seq O (Seq B (Seq O' C)))) c <> None.
Proof.
  intros HA HO HB HO' HC
    (s1 & s2 & s3 & s4 & s5 & s6 & -> & K1 & K2 & K3 & H2 & K4 & K5 & K6 & H4 & K7 & K8 & K9).
  apply (re_match_complete _ _ ([w] ++ [t] ++ [y] ++ [t'] ++ [z])).
  replace (s1 ++ w ++ s2 ++ t ++ s3 ++ y ++ s4 ++ t' ++ s5 ++ z ++ s6)
    with ((s1 ++ w ++ s2) ++ t ++ (s3 ++ y ++ s4) ++ t' ++ (s5 ++ z ++ s6)) by now rewrite <- !app_assoc.
  constructor; [apply HA; eauto 10|]. constructor; [apply HO; auto|]. constructor; [apply HB; eauto 10|].
  constructor; [apply HO'; auto|apply HC; eauto 10].
Qed.
Definition ratio_text (p q m : text) : Prop :=
  exists s1 s2, m = p ++ s1 ++ ch 47 :: s2 ++ q /\ name_text p /\ name_text q /\ spaces s1 /\ spaces s2.
Lemma slash_iff u cs : pr rx_slash u cs <-> u = [ch 47] /\ cs = [].
Proof.
  unfold rx_slash. rewrite pr_one_iff. split.
  - intros ((x & -> & H) & ->). apply chr_iff in H; [|lia]. subst; auto.
  - intros (-> & ->). split; auto. exists (ch 47). split; auto.
Qed.
(** [token/token] as one part. *)
Lemma quo_pr R u cs : pr (Seq token (Seq rx_slash (Seq token R))) u cs <->
  exists s1 m s2 p q v ds, u = s1 ++ m ++ s2 ++ v /\ cs = p :: q :: ds /\ spaces s1 /\ ratio_text p q m /\ spaces s2 /\
    pr R v ds.
Proof.
  rewrite pr_seq_iff. split.
  - intros (a & b & d1 & d2 & -> & -> & H1 & H).
    apply pr_seq_iff in H as (t & b2 & d3 & d4 & -> & -> & H2 & H).
    apply pr_seq_iff in H as (a3 & b3 & d5 & d6 & -> & -> & H3 & H).
    apply comp_token in H1 as (s1 & p & s2 & -> & -> & K1 & K2 & K3). apply slash_iff in H2 as (-> & ->).
    apply comp_token in H3 as (s3 & q & s4 & -> & -> & K4 & K5 & K6).
    exists s1, (p ++ s2 ++ ch 47 :: s3 ++ q), s4, p, q, b3, d6. split.
    { rewrite <- !app_assoc. cbn. now rewrite <- !app_assoc. }
    repeat split; auto. exists s2, s3. auto.
  - intros (s1 & m & s2 & p & q & v & ds & -> & -> & K1 & (s3 & s4 & -> & K2 & K3 & K4 & K5) & K6 & H).
    exists (s1 ++ p ++ s3), ([ch 47] ++ (s4 ++ q ++ s2) ++ v), [p], ([] ++ [q] ++ ds). split.
    { rewrite <- !app_assoc. cbn. now rewrite <- !app_assoc. }
    repeat split; auto; [apply comp_token; eauto 10|].
    constructor; [apply slash_iff; auto|]. constructor; [apply comp_token; eauto 10|auto].
Qed.
Lemma rer2 O o c gs : opr O o ->
  re_match (Seq token (Seq rx_slash (Seq token (Seq O numbr)))) c = Some gs ->
  exists p q m t w, gs = [p; q; t; w] /\ shape2 (ratio_text p q) o numlang c m t w.
Proof.
  intros HO H. apply re_match_sound in H as (u & s & -> & H & Hs).
  apply quo_pr in H as (s1 & m & s2 & p & q & v & ds & -> & -> & K1 & K2 & K3 & H).
  apply pr_seq_iff in H as (t & b & d1 & d2 & -> & -> & H1 & H).
  apply HO in H1 as (H1 & ->). apply comp_numbr in H as (s3 & w & s4 & -> & -> & K4 & K5 & K6).
  exists p, q, m, t, w. split; auto. exists s1, s2, s3, (s4 ++ s). rewrite <- !app_assoc.
  repeat split; auto. now apply spaces_app.
Qed.
Lemma rer2_some O o c p q m t w : opr O o -> shape2 (ratio_text p q) o numlang c m t w ->
  re_match (Seq token (Seq rx_slash (Seq token (Seq O numbr)))) c <> None.
Proof.
  intros HO (s1 & s2 & s3 & s4 & -> & K1 & K2 & K3 & H2 & K4 & K5 & K6).
  apply (re_match_complete _ _ (p :: q :: [t] ++ [w])).
  apply quo_pr. exists s1, m, s2, p, q, (t ++ s3 ++ w ++ s4), ([t] ++ [w]). repeat split; auto.
  constructor; [apply HO; auto|apply comp_numbr; eauto 10].
Qed.
Lemma rer3 c gs : re_match r_2w c = Some gs ->
  exists w t p q m t' z, gs = [w; t; p; q; t'; z] /\ shape3 numlang LE (ratio_text p q) LE numlang c w t m t' z.
Proof.
  intros H. apply re_match_sound in H as (u & s & -> & H & Hs). unfold r_2w in H.
  apply pr_seq_iff in H as (a & b & d1 & d2 & -> & -> & H1 & H).
  apply pr_seq_iff in H as (t & b2 & d3 & d4 & -> & -> & H2 & H).
  apply quo_pr in H as (s3 & m & s4 & p & q & v & ds & -> & -> & K4 & K5 & K6 & H).
  apply pr_seq_iff in H as (t' & b4 & d7 & d8 & -> & -> & H4 & H5).
  apply comp_numbr in H1 as (s1 & w & s2 & -> & -> & K1 & K2 & K3). apply opr_le in H2 as (H2 & ->).
  apply opr_le in H4 as (H4 & ->).
  apply comp_numbr in H5 as (s5 & z & s6 & -> & -> & K7 & K8 & K9).
  exists w, t, p, q, m, t', z. split; auto. exists s1, s2, s3, s4, s5, (s6 ++ s). rewrite <- !app_assoc.
  repeat split; auto. now apply spaces_app.
Qed.
Lemma rer3_some c w t p q m t' z : shape3 numlang LE (ratio_text p q) LE numlang c w t m t' z ->
  re_match r_2w c <> None.
Proof.
  intros (s1 & s2 & s3 & s4 & s5 & s6 & -> & K1 & K2 & K3 & H2 & K4 & K5 & K6 & H4 & K7 & K8 & K9).
  apply (re_match_complete _ _ ([w] ++ [t] ++ (p :: q :: [t'] ++ [z]))).
  replace (s1 ++ w ++ s2 ++ t ++ s3 ++ m ++ s4 ++ t' ++ s5 ++ z ++ s6)
    with ((s1 ++ w ++ s2) ++ t ++ (s3 ++ m ++ s4 ++ (t' ++ (s5 ++ z ++ s6)))) by now rewrite <- !app_assoc.
  constructor; [apply comp_numbr; eauto 10|]. constructor; [apply opr_le; auto|].
  apply quo_pr. exists s3, m, s4, p, q, (t' ++ (s5 ++ z ++ s6)), ([t'] ++ [z]). repeat split; auto.
  constructor; [apply opr_le; auto|apply comp_numbr; eauto 10].
Qed.

(** ** Numerals. *)
Lemma dec_value d : forall acc, IZR (dec acc d) = IZR acc * 10 ^ length d + digits_value d.
Proof.
  induction d as [|c d IH]; cbn -[pow Z.mul]; intros acc; [cbn; ring|].
  rewrite IH, plus_IZR, mult_IZR. fold (code c). replace (nat_of_ascii c) with (cd c) by auto.
  rewrite <- INR_IZR_INZ. change (code c) with (cd c). cbn [pow]. ring.
Qed.
Lemma dec0_value d : IZR (dec 0 d) = digits_value d.
Proof. rewrite dec_value. ring. Qed.
Lemma digits_value_app a b : digits_value (a ++ b) = digits_value a * 10 ^ length b + digits_value b.
Proof.
  induction a as [|c a IH]; cbn -[pow]; [ring|]. rewrite IH, app_length, pow_add. ring.
Qed.
Lemma span_digits_eq s i r : span_digits s = (i, r) -> s = i ++ r /\ Forall digit i.
Proof.
  revert i r; induction s as [|x s IH]; cbn; intros i r H; [inv H; auto|].
  destruct (is_digit x) eqn:E.
  - destruct (span_digits s) as (a, b). inv H. destruct (IH _ _ eq_refl) as (-> & F). split; auto.
    constructor; auto. now apply is_digit_spec.
  - inv H. auto.
Qed.
Definition nodigit (r : text) : Prop := match r with [] => True | x :: _ => ~ digit x end.
Lemma span_digits_app i r : Forall digit i -> nodigit r -> span_digits (i ++ r) = (i, r).
Proof.
  induction 1 as [|x i Hx Hi IH]; cbn; intros N.
  - destruct r as [|x r]; auto. cbn. destruct (is_digit x) eqn:E; auto.
    apply is_digit_spec in E. cbn in N. tauto.
  - apply is_digit_spec in Hx. rewrite Hx, IH; auto.
Qed.
Lemma take_sign_eq s g r : take_sign s = (g, r) -> exists t, s = t ++ r /\ sign_text t (IZR g).
Proof.
  destruct s as [|x s]; cbn; intros H; [inv H; exists []; split; auto; constructor|].
  destruct (chr 45 x) eqn:E; [inv H; exists [x]; split; auto; apply chr_iff in E; [subst; constructor|lia]|].
  destruct (chr 43 x) eqn:E'; [inv H; exists [x]; split; auto; apply chr_iff in E'; [subst; constructor|lia]|].
  inv H. exists []. split; auto. constructor.
Qed.
Definition nosign (r : text) : Prop := match r with [] => True | x :: _ => cd x <> 45%nat /\ cd x <> 43%nat end.
Lemma take_sign_app t s r : sign_text t s -> (t = [] -> nosign r) -> exists g, take_sign (t ++ r) = (g, r) /\ IZR g = s.
Proof.
  intros H N; inv H; cbn.
  - specialize (N eq_refl). exists 1%Z. split; auto. destruct r as [|x r]; cbn; auto. cbn in N.
    destruct (chr 45 x) eqn:E; [apply chr_spec in E; lia|].
    destruct (chr 43 x) eqn:E'; [apply chr_spec in E'; lia|auto].
  - exists 1%Z. auto.
  - exists (-1)%Z. auto.
Qed.
Lemma digits_value_nonneg_Z d : exists n, INR n = digits_value d /\ dec 0 d = Z.of_nat n.
Proof.
  assert (H : (0 <= dec 0 d)%Z).
  { apply le_IZR. rewrite dec0_value. clear. induction d as [|c d IH]; cbn -[pow]; [lra|].
    assert (0 <= INR (cd c - 48) * 10 ^ length d) by (apply Rmult_le_pos; [apply pos_INR|apply pow_le; lra]). lra. }
  exists (Z.to_nat (dec 0 d)). rewrite Z2Nat.id by auto. split; auto.
  rewrite INR_IZR_INZ, Z2Nat.id by auto. apply dec0_value.
Qed.
Lemma pow10_neq n : 10 ^ n <> 0.
Proof. apply pow_nonzero. lra. Qed.
Lemma powerRZ_opp n : powerRZ 10 (- Z.of_nat n) = / 10 ^ n.
Proof. rewrite powerRZ_neg', <- pow_powerRZ. auto. Qed.
Lemma powerRZ_sub n m : powerRZ 10 (Z.of_nat n - Z.of_nat m) = 10 ^ n / 10 ^ m.
Proof. unfold Z.sub. rewrite powerRZ_add by lra. now rewrite <- pow_powerRZ, powerRZ_opp. Qed.
Lemma powerRZ_down n m : powerRZ 10 (- Z.of_nat n - Z.of_nat m) = / 10 ^ n / 10 ^ m.
Proof. unfold Z.sub. rewrite powerRZ_add by lra. now rewrite !powerRZ_opp. Qed.
Lemma take_exp_sound s e : take_exp s = Some e ->
  forall m, exists x, exp_text s x /\ powerRZ 10 (e - Z.of_nat m) = x / 10 ^ m.
Proof.
  destruct s as [|c s]; unfold take_exp; intros H m.
  - inv H. exists 1. split; [constructor|]. change 0%Z with (Z.of_nat 0). now rewrite powerRZ_sub.
  - destruct (is_exp c) eqn:E; [|discriminate].
    assert (Hc : c = ch 101 \/ c = ch 69).
    { unfold is_exp in E. apply orb_true_iff in E as [E|E]; apply chr_iff in E; auto; lia. }
    destruct (take_sign s) as (g, r) eqn:Es. destruct (span_digits r) as (d, r') eqn:Ed.
    apply take_sign_eq in Es as (t & -> & Hs). apply span_digits_eq in Ed as (-> & Fd).
    destruct d as [|d0 d]; [discriminate|]. destruct r' as [|]; [|discriminate]. assert (He : e = (g * dec 0 (d0 :: d))%Z) by congruence; subst e; clear H. rewrite app_nil_r.
    set (dd := d0 :: d) in *. destruct (digits_value_nonneg_Z dd) as (n & Hn & Hz). rewrite Hz.
    inversion Hs as [E1 E2|E1 E2|E1 E2]; subst t.
    + assert (g = 1%Z) by (now apply eq_IZR). subst g.
      exists (10 ^ n). split; [apply ex_up with (g := []); auto; discriminate|].
      replace (1 * Z.of_nat n)%Z with (Z.of_nat n) by lia. apply powerRZ_sub.
    + assert (g = 1%Z) by (now apply eq_IZR). subst g.
      exists (10 ^ n). split; [apply (ex_up c [ch 43]); auto; discriminate|].
      replace (1 * Z.of_nat n)%Z with (Z.of_nat n) by lia. apply powerRZ_sub.
    + assert (g = (-1)%Z) by (now apply eq_IZR). subst g.
      exists (/ 10 ^ n). split; [apply (ex_down c); auto; discriminate|].
      replace (-1 * Z.of_nat n)%Z with (- Z.of_nat n)%Z by lia. apply powerRZ_down.
Qed.
Lemma digit_nosign d r : Forall digit d -> d <> [] -> nosign (d ++ r).
Proof. intros F N. destruct d as [|x d]; [congruence|]. inv F. cbn. unfold digit in *. lia. Qed.
Lemma take_exp_complete s x : exp_text s x ->
  exists e, take_exp s = Some e /\ forall m, powerRZ 10 (e - Z.of_nat m) = x / 10 ^ m.
Proof.
  intros H; inv H.
  - exists 0%Z. split; auto. intros m. change 0%Z with (Z.of_nat 0). now rewrite powerRZ_sub.
  - assert (Ei : is_exp e = true).
    { unfold is_exp. apply orb_true_iff. destruct H0; subst; [left|right]; apply chr_iff; auto; lia. }
    assert (Hg : sign_text g 1) by (destruct H1; subst; constructor).
    destruct (take_sign_app g 1 d Hg) as (z & Hz & Hz1).
    { intros ->. rewrite <- (app_nil_r d). now apply digit_nosign. }
    unfold take_exp. rewrite Ei, Hz.
    pose proof (span_digits_app d [] H2 I) as Hsp. rewrite app_nil_r in Hsp. rewrite Hsp.
    destruct d as [|d0 d]; [congruence|].
    assert (z = 1%Z) by (now apply eq_IZR). subst z.
    destruct (digits_value_nonneg_Z (d0 :: d)) as (n' & Hn & Hd). rewrite Hd.
    eexists; split; eauto. intros m. replace (1 * Z.of_nat n')%Z with (Z.of_nat n') by lia.
    rewrite powerRZ_sub. do 2 f_equal. apply INR_eq. congruence.
  - assert (Ei : is_exp e = true).
    { unfold is_exp. apply orb_true_iff. destruct H0; subst; [left|right]; apply chr_iff; auto; lia. }
    destruct (take_sign_app [ch 45] (-1) d sg_minus) as (z & Hz & Hz1); [discriminate|].
    cbn [app] in Hz. unfold take_exp. rewrite Ei, Hz.
    pose proof (span_digits_app d [] H1 I) as Hsp. rewrite app_nil_r in Hsp. rewrite Hsp.
    destruct d as [|d0 d]; [congruence|].
    assert (z = (-1)%Z) by (now apply eq_IZR). subst z.
    destruct (digits_value_nonneg_Z (d0 :: d)) as (n' & Hn & Hd). rewrite Hd.
    eexists; split; eauto. intros m. replace (-1 * Z.of_nat n')%Z with (- Z.of_nat n')%Z by lia.
    rewrite powerRZ_down. do 3 f_equal. apply INR_eq. congruence.
Qed.
Lemma pyfloat_sound s r : pyfloat s = Some r -> numeral s r.
Proof.
  unfold pyfloat. destruct (take_sign s) as (g, s1) eqn:Es. destruct (span_digits s1) as (i, s2) eqn:Ei.
  apply take_sign_eq in Es as (t & -> & Hs). apply span_digits_eq in Ei as (-> & Fi).
  destruct (match s2 with x :: s' => if chr 46 x then span_digits s' else ([], s2) | [] => ([], []) end)
    as (f, s3) eqn:Ef.
  assert (Hf : exists ft, s2 = ft ++ s3 /\ frac_text ft f).
  { destruct s2 as [|x s2]; [inv Ef; exists []; split; auto; constructor|].
    destruct (chr 46 x) eqn:E; [|inv Ef; exists []; split; auto; constructor].
    apply span_digits_eq in Ef as (-> & Ff). apply chr_iff in E; [|lia]. subst.
    exists (ch 46 :: f). split; auto. now constructor. }
  destruct Hf as (ft & -> & Hf). destruct (i ++ f) as [|c0 d0] eqn:Eif; [discriminate|].
  destruct (take_exp s3) as [e|] eqn:Ee; [|discriminate].
  intros H. destruct (take_exp_sound _ _ Ee (length f)) as (x & Hx & Hp).
  assert (Hr : r = IZR (g * dec 0 (c0 :: d0)) * powerRZ 10 (e - Z.of_nat (length f))) by congruence.
  subst r; clear H.
  replace (IZR (g * dec 0 (c0 :: d0)) * powerRZ 10 (e - Z.of_nat (length f)))
    with (IZR g * (digits_value i + digits_value f / 10 ^ length f) * x).
  { apply decimal; auto. rewrite Eif. discriminate. }
  rewrite Hp, mult_IZR, dec0_value, <- Eif, digits_value_app. field. apply pow10_neq.
Qed.
Lemma exp_head et x : exp_text et x -> et = [] \/ exists c r, et = c :: r /\ (cd c = 101 \/ cd c = 69)%nat.
Proof.
  intros H; inv H; auto; right; eexists; eexists; split; eauto; destruct H0; subst; rewrite cd_ch by lia; auto.
Qed.
Lemma pyfloat_complete g s i ft f et x :
  sign_text g s -> Forall digit i -> frac_text ft f -> i ++ f <> [] -> exp_text et x ->
  pyfloat (g ++ i ++ ft ++ et) = Some (s * (digits_value i + digits_value f / 10 ^ length f) * x).
Proof.
  intros Hs Fi Hf N He. unfold pyfloat. pose proof (exp_head _ _ He) as Hh.
  assert (Nft : nodigit (ft ++ et)).
  { inv Hf; cbn; [|unfold digit; rewrite cd_ch by lia; lia].
    destruct Hh as [->|(c & r & -> & Hc)]; cbn; auto. unfold digit. lia. }
  destruct (take_sign_app g s (i ++ ft ++ et) Hs) as (z & Hz & <-).
  { intros _. destruct i as [|i0 i]; [|now apply digit_nosign].
    cbn. inv Hf; cbn; [|rewrite cd_ch by lia; lia].
    destruct Hh as [->|(c & r & -> & Hc)]; cbn; auto. }
  rewrite Hz, span_digits_app by auto.
  match goal with |- (let '(_, _) := ?m in _) = _ => assert (Hm : m = (f, et)) end.
  { inv Hf; cbn [app].
      - destruct Hh as [->|(c & r & -> & Hc)]; cbn [app]; auto.
        destruct (chr 46 c) eqn:E; auto. apply chr_spec in E. lia.
      - replace (chr 46 (ch 46)) with true by (symmetry; now apply chr_iff; [lia|]).
        rewrite span_digits_app; auto. destruct Hh as [->|(c & r & -> & Hc)]; cbn; auto. unfold digit. lia. }
  rewrite Hm. destruct (i ++ f) as [|c0 d0] eqn:Eif; [congruence|].
  destruct (take_exp_complete _ _ He) as (e & -> & Hp). f_equal.
  rewrite Hp, mult_IZR, dec0_value, <- Eif, digits_value_app. field. apply pow10_neq.
Qed.
Lemma pyfloat_digits d : Forall digit d -> d <> [] -> pyfloat d = Some (digits_value d).
Proof.
  intros F N. pose proof (pyfloat_complete [] 1 d [] [] [] 1 sg_none F fr_none) as H.
  rewrite app_nil_r in H. specialize (H N ex_none). cbn [app] in H. rewrite app_nil_r in H. rewrite H. f_equal.
  cbn. lra.
Qed.
Lemma pyfloat_unique_numeral s r : numeral s r -> existsb (chr 47) s = false -> pyfloat s = Some r.
Proof.
  intros H N. inv H; [now apply pyfloat_complete|].
  rewrite existsb_app in N. cbn in N. rewrite orb_true_r in N. discriminate.
Qed.
Lemma noslash_digits a : Forall digit a -> existsb (chr 47) a = false.
Proof.
  induction 1; cbn; auto. rewrite IHForall. destruct (chr 47 x) eqn:E; auto.
  apply chr_spec in E. unfold digit in *. lia.
Qed.
Lemma until_slash_app a b : existsb (chr 47) a = false -> until_slash (a ++ ch 47 :: b) = a /\ after_slash (a ++ ch 47 :: b) = b.
Proof.
  induction a as [|x a IH]; cbn; intros H.
  - replace (chr 47 (ch 47)) with true by reflexivity. auto.
  - apply orb_false_iff in H as (H & H'). rewrite H. destruct (IH H') as (-> & ->). auto.
Qed.
Lemma until_slash_none a : existsb (chr 47) a = false -> until_slash a = a.
Proof. induction a as [|x a IH]; cbn; auto; intros H. apply orb_false_iff in H as (H & H'). rewrite H, IH; auto. Qed.
Lemma asfloat_fraction a b : Forall digit a -> a <> [] -> Forall digit b -> b <> [] ->
  asfloat (a ++ ch 47 :: b) = if Req_EM_T (digits_value b) 0 then None else Some (digits_value a / digits_value b).
Proof.
  intros Fa Na Fb Nb. unfold asfloat. rewrite existsb_app. cbn [existsb].
  replace (chr 47 (ch 47)) with true by reflexivity. rewrite orb_true_l, orb_true_r.
  destruct (until_slash_app a b (noslash_digits a Fa)) as (-> & ->).
  rewrite (until_slash_none b) by (now apply noslash_digits). rewrite !pyfloat_digits by auto. auto.
Qed.
(** What the number pattern accepts. *)
Definition opt_text (P : ascii -> Prop) (t : text) : Prop := t = [] \/ exists c, t = [c] /\ P c.
Definition decimal_shape (w : text) : Prop :=
  exists g i p f e g' d, w = g ++ i ++ p ++ f ++ e ++ g' ++ d /\
    opt_text (fun c => c = ch 45 \/ c = ch 43) g /\ Forall digit i /\ opt_text (fun c => c = ch 46) p /\
    Forall digit f /\ opt_text (fun c => c = ch 101 \/ c = ch 69) e /\
    opt_text (fun c => c = ch 45 \/ c = ch 43) g' /\ Forall digit d.
Definition fraction_shape (w : text) : Prop :=
  exists a b, w = a ++ ch 47 :: b /\ Forall digit a /\ a <> [] /\ Forall digit b /\ b <> [].
Lemma pr_star_digit u cs : pr (Star is_digit) u cs <-> Forall digit u /\ cs = [].
Proof. rewrite pr_star_iff. rewrite (forall_iff _ digit) by apply is_digit_spec. tauto. Qed.
Lemma pr_opt_text c (P : ascii -> Prop) u cs : (forall x, c x = true <-> P x) -> pr (Opt c) u cs <-> opt_text P u /\ cs = [].
Proof.
  intros H. rewrite pr_opt_iff. unfold opt_text. split; intros ([E|(x & E & K)] & ->); split; auto; right; exists x;
  split; auto; apply H; auto.
Qed.
Lemma is_sign_spec c : is_sign c = true <-> c = ch 45 \/ c = ch 43.
Proof. unfold is_sign. rewrite orb_true_iff, !chr_iff by lia. tauto. Qed.
Lemma is_exp_spec c : is_exp c = true <-> c = ch 101 \/ c = ch 69.
Proof. unfold is_exp. rewrite orb_true_iff, !chr_iff by lia. tauto. Qed.
Lemma numlang_iff w : numlang w <-> decimal_shape w \/ fraction_shape w.
Proof.
  unfold numlang. rewrite pr_alt_iff. split; intros [H|H].
  - left. unfold rx_decimal in H.
    apply pr_seq_iff in H as (g & u1 & ds & es & -> & _ & H1 & H).
    apply pr_seq_iff in H as (i & u2 & d1 & e1 & -> & _ & H2 & H).
    apply pr_seq_iff in H as (p & u3 & d2 & e2 & -> & _ & H3 & H).
    apply pr_seq_iff in H as (f & u4 & d3 & e3 & -> & _ & H4 & H).
    apply pr_seq_iff in H as (e & u5 & d4 & e4 & -> & _ & H5 & H).
    apply pr_seq_iff in H as (g' & d & d5 & e5 & -> & _ & H6 & H7).
    apply (pr_opt_text _ _ _ _ is_sign_spec) in H1 as (H1 & _).
    apply (pr_opt_text _ _ _ _ is_sign_spec) in H6 as (H6 & _).
    apply (pr_opt_text _ _ _ _ is_exp_spec) in H5 as (H5 & _).
    apply (pr_opt_text _ (fun c => c = ch 46)) in H3 as (H3 & _); [|intros; apply chr_iff; lia].
    apply pr_star_digit in H2 as (H2 & _). apply pr_star_digit in H4 as (H4 & _).
    apply pr_star_digit in H7 as (H7 & _).
    exists g, i, p, f, e, g', d. repeat split; auto.
  - right. unfold rx_fraction in H. apply pr_seq_iff in H as (a & u & ds & es & -> & _ & H1 & H).
    apply pr_seq_iff in H as (t & b & d1 & e1 & -> & _ & H2 & H3).
    apply slash_iff in H2 as (-> & _). apply pr_plus in H1 as (N1 & F1 & _). apply pr_plus in H3 as (N3 & F3 & _).
    exists a, b. repeat split; auto; (eapply Forall_impl; [|eassumption]); intros; now apply is_digit_spec.
  - left. destruct H as (g & i & p & f & e & g' & d & -> & H1 & H2 & H3 & H4 & H5 & H6 & H7).
    change (@nil text) with (@nil text ++ []). constructor; [apply (pr_opt_text _ _ _ _ is_sign_spec); auto|].
    change (@nil text) with (@nil text ++ []). constructor; [apply pr_star_digit; auto|].
    change (@nil text) with (@nil text ++ []). constructor;
      [apply (pr_opt_text _ (fun c => c = ch 46)); auto; intros; apply chr_iff; lia|].
    change (@nil text) with (@nil text ++ []). constructor; [apply pr_star_digit; auto|].
    change (@nil text) with (@nil text ++ []). constructor; [apply (pr_opt_text _ _ _ _ is_exp_spec); auto|].
    change (@nil text) with (@nil text ++ []). constructor; [apply (pr_opt_text _ _ _ _ is_sign_spec); auto|].
    apply pr_star_digit; auto.
  - right. destruct H as (a & b & -> & F1 & N1 & F2 & N2).
    change (@nil text) with (@nil text ++ []). constructor.
    + apply pr_plus. repeat split; auto. eapply Forall_impl; [|eassumption]; intros; now apply is_digit_spec.
    + change (ch 47 :: b) with ([ch 47] ++ b). change (@nil text) with (@nil text ++ []). constructor;
        [apply slash_iff; auto|].
      apply pr_plus. repeat split; auto. eapply Forall_impl; [|eassumption]; intros; now apply is_digit_spec.
Qed.
Lemma decimal_has_shape g s i ft f et x :
  sign_text g s -> Forall digit i -> frac_text ft f -> exp_text et x -> decimal_shape (g ++ i ++ ft ++ et).
Proof.
  intros H0 H1 H2 H4.
  assert (Hg : opt_text (fun c => c = ch 45 \/ c = ch 43) g) by (inv H0; unfold opt_text; eauto 6).
  assert (Hf : exists p, ft = p ++ f /\ opt_text (fun c => c = ch 46) p /\ Forall digit f).
  { inv H2; [exists []|exists [ch 46]]; unfold opt_text; eauto 6. }
  destruct Hf as (p & -> & Hp & Ff).
  assert (He : exists e g' d, et = e ++ g' ++ d /\ opt_text (fun c => c = ch 101 \/ c = ch 69) e /\
    opt_text (fun c => c = ch 45 \/ c = ch 43) g' /\ Forall digit d).
  { inv H4; [exists [], [], []|exists [e], g0, d|exists [e], [ch 45], d]; unfold opt_text; repeat split; eauto.
    destruct H3; subst; eauto. }
  destruct He as (e & g' & d & -> & He & Hg' & Fd).
  exists g, i, p, f, e, g', d. rewrite <- !app_assoc. repeat split; auto.
Qed.
Lemma numeral_numlang w r : numeral w r -> numlang w.
Proof.
  intros H; apply numlang_iff; inv H; [left; eapply decimal_has_shape; eauto|right; exists a, b; auto].
Qed.
Lemma opt_noslash (P : ascii -> Prop) t : opt_text P t -> (forall c, P c -> cd c <> 47%nat) -> existsb (chr 47) t = false.
Proof.
  intros [->|(c & -> & H)] K; cbn; auto. apply K in H. destruct (chr 47 c) eqn:E; auto.
  apply chr_spec in E. congruence.
Qed.
Lemma decimal_noslash w : decimal_shape w -> existsb (chr 47) w = false.
Proof.
  intros (g & i & p & f & e & g' & d & -> & H1 & H2 & H3 & H4 & H5 & H6 & H7).
  rewrite !existsb_app, (noslash_digits i), (noslash_digits f), (noslash_digits d) by auto.
  rewrite (opt_noslash _ _ H1), (opt_noslash _ _ H3), (opt_noslash _ _ H5), (opt_noslash _ _ H6); auto;
  intros c Hc; try (destruct Hc as [Hc|Hc]); subst; rewrite cd_ch; lia.
Qed.
Lemma numeral_asfloat w r : numeral w r -> asfloat w = Some r.
Proof.
  intros H; inv H.
  - unfold asfloat. rewrite decimal_noslash by (eapply decimal_has_shape; eauto). now apply pyfloat_complete.
  - rewrite asfloat_fraction by auto. destruct (Req_EM_T (digits_value b) 0); [contradiction|auto].
Qed.
Lemma asfloat_numeral w r : numlang w -> (asfloat w = Some r <-> numeral w r).
Proof.
  intros H. split; [|apply numeral_asfloat].
  apply numlang_iff in H as [H|(a & b & -> & F1 & N1 & F2 & N2)].
  - pose proof (decimal_noslash _ H) as N. unfold asfloat. rewrite N. apply pyfloat_sound.
  - rewrite asfloat_fraction by auto. destruct (Req_EM_T (digits_value b) 0) as [E|E]; [discriminate|].
    intros H. injection H as <-. now constructor.
Qed.

(** ** A text has one reading. *)
Definition nw (s : text) : text := filter (fun c => negb (is_space c)) s.
Lemma nw_app a b : nw (a ++ b) = nw a ++ nw b.
Proof. apply filter_app. Qed.
Lemma nw_spaces s : spaces s -> nw s = [].
Proof.
  induction 1 as [|c s H _ IH]; cbn; auto. apply is_space_spec in H. rewrite H. auto.
Qed.
Definition opfree (s : text) : Prop := Forall (fun c => ~ (60 <= cd c <= 62)%nat) s.
Definition solid (s : text) : Prop := Forall (fun c => ~ white c /\ ~ (60 <= cd c <= 62)%nat) s.
Lemma nw_solid s : Forall (fun c => ~ white c) s -> nw s = s.
Proof.
  induction 1 as [|c s H _ IH]; cbn; auto. destruct (is_space c) eqn:E; [apply is_space_spec in E; tauto|].
  cbn. f_equal. exact IH.
Qed.
Lemma solid_nw s : solid s -> nw s = s /\ opfree s.
Proof.
  intros H. split; [apply nw_solid|]; (eapply Forall_impl; [|exact H]); cbn; tauto.
Qed.
Lemma name_solid s : name_text s -> solid s.
Proof.
  intros (_ & F). eapply Forall_impl; [|exact F]. intros c H. unfold name_char, digit, white in *.
  revert H. generalize (cd c). intros n H. cbn in *. lia.
Qed.
Lemma digit_solid s : Forall digit s -> solid s.
Proof.
  apply Forall_impl. intros c H. unfold digit, white in *. revert H. generalize (cd c). intros n H. cbn. lia.
Qed.
Lemma opt_solid (P : ascii -> Prop) t : opt_text P t ->
  (forall c, P c -> In (cd c) [45; 43; 46; 101; 69; 47]%nat) -> solid t.
Proof.
  intros [->|(c & -> & H)] K; constructor; [|constructor]. apply K in H. unfold white. revert H.
  generalize (cd c). intros n H. cbn in *. lia.
Qed.
Lemma numlang_solid w : numlang w -> solid w.
Proof.
  intros H. apply numlang_iff in H
    as [(g & i & p & f & e & g' & d & -> & H1 & H2 & H3 & H4 & H5 & H6 & H7)|(a & b & -> & F1 & _ & F2 & _)].
  - unfold solid. rewrite !Forall_app. repeat split; try (now apply digit_solid); (eapply opt_solid; [eassumption|]);
    cbv beta; intros c Hc; try (destruct Hc as [Hc|Hc]); subst; rewrite cd_ch by lia; cbn; auto 10.
  - apply Forall_app. split; [now apply digit_solid|]. constructor; [|now apply digit_solid].
    unfold white. rewrite cd_ch by lia. cbn. lia.
Qed.
Lemma ratio_nw p q m : ratio_text p q m -> nw m = p ++ ch 47 :: q /\ opfree (nw m).
Proof.
  intros (s1 & s2 & -> & Np & Nq & S1 & S2).
  destruct (solid_nw p) as (Ep & Op); [now apply name_solid|].
  destruct (solid_nw q) as (Eq & Oq); [now apply name_solid|].
  assert (E : nw (p ++ s1 ++ ch 47 :: s2 ++ q) = p ++ ch 47 :: q).
  { rewrite !nw_app, Ep, (nw_spaces s1) by auto. cbn [app].
    change (ch 47 :: s2 ++ q) with ([ch 47] ++ s2 ++ q). rewrite !nw_app, (nw_spaces s2), Eq by auto.
    rewrite (nw_solid [ch 47]); auto. constructor; [|constructor]. unfold white. rewrite cd_ch by lia. cbn. lia. }
  rewrite E. split; auto. apply Forall_app. split; auto. constructor; auto. rewrite cd_ch; lia.
Qed.
Definition good (P : text -> Prop) : Prop := forall w, P w -> opfree (nw w).
Lemma good_num : good numlang.
Proof. intros w H. apply numlang_solid in H. destruct (solid_nw w H) as (-> & ?). auto. Qed.
Lemma good_name : good name_text.
Proof. intros w H. apply name_solid in H. destruct (solid_nw w H) as (-> & ?). auto. Qed.
Lemma good_ratio p q : good (ratio_text p q).
Proof. intros w H. now apply ratio_nw in H. Qed.
Lemma num_nw w : numlang w -> nw w = w.
Proof. intros H. apply numlang_solid in H. now apply solid_nw. Qed.
Lemma name_nw w : name_text w -> nw w = w.
Proof. intros H. apply name_solid in H. now apply solid_nw. Qed.
Lemma rel_nw o t : rel_text o t -> nw t = t.
Proof.
  intros H; inv H; apply nw_solid; repeat (apply Forall_cons); try apply Forall_nil;
  unfold white; rewrite cd_ch by lia; cbn; lia.
Qed.
Lemma rel_head o t : rel_text o t -> exists c r, t = c :: r /\ (60 <= cd c <= 62)%nat /\ cd c <> 61%nat.
Proof. intros H; inv H; eexists; eexists; split; eauto; rewrite cd_ch; lia. Qed.
Definition noeq (y : text) : Prop := match y with [] => True | c :: _ => cd c <> 61%nat end.
Lemma opfree_noeq y : opfree y -> noeq y.
Proof. intros H; destruct H; cbn; auto. lia. Qed.
Lemma ch_inj a b : (a < 256)%nat -> (b < 256)%nat -> ch a = ch b -> a = b.
Proof. intros Ha Hb H. rewrite <- (cd_ch a Ha), <- (cd_ch b Hb). now rewrite H. Qed.
Lemma cut w t y w' t' y' o o' : opfree w -> opfree w' -> rel_text o t -> rel_text o' t' -> noeq y -> noeq y' ->
  w ++ t ++ y = w' ++ t' ++ y' -> w = w' /\ t = t' /\ y = y' /\ o = o'.
Proof.
  intros Hw; revert w'; induction Hw as [|c w Hc Hw IH]; intros w' Hw' Ht Ht' Hy Hy' E.
  - destruct w' as [|c' w'].
    + cbn in E. split; auto.
      inv Ht; inv Ht'; cbn in E; injection E; intros;
      try (match goal with H : ch _ = ch _ |- _ => exfalso; apply ch_inj in H; lia end); subst; auto;
      exfalso; cbn in *; rewrite ?cd_ch in * by lia; lia.
    + exfalso. inv Hw'. destruct (rel_head _ _ Ht) as (d & r & -> & Hd & _). cbn in E. injection E as -> E. tauto.
  - destruct w' as [|c' w'].
    + exfalso. destruct (rel_head _ _ Ht') as (d & r & -> & Hd & _). cbn in E. injection E as -> E. tauto.
    + cbn in E. injection E as -> E. inv Hw'. destruct (IH w') as (-> & ?); auto.
Qed.
Lemma view2 P o Q c w t y : shape2 P o Q c w t y -> nw c = nw w ++ t ++ nw y /\ P w /\ rel_text o t /\ Q y.
Proof.
  intros (s1 & s2 & s3 & s4 & -> & K1 & K2 & K3 & H2 & K4 & K5 & K6).
  rewrite !nw_app, (nw_spaces s1), (nw_spaces s2), (nw_spaces s3), (nw_spaces s4), (rel_nw _ _ H2) by auto.
  cbn. rewrite app_nil_r. auto.
Qed.
Lemma view3 P o Q o' T c w t y t' z : shape3 P o Q o' T c w t y t' z ->
  nw c = nw w ++ t ++ nw y ++ t' ++ nw z /\ P w /\ rel_text o t /\ Q y /\ rel_text o' t' /\ T z.
Proof.
  intros (s1 & s2 & s3 & s4 & s5 & s6 & -> & K1 & K2 & K3 & H2 & K4 & K5 & K6 & H4 & K7 & K8 & K9).
  rewrite !nw_app, (nw_spaces s1), (nw_spaces s2), (nw_spaces s3), (nw_spaces s4), (nw_spaces s5), (nw_spaces s6),
    (rel_nw _ _ H2), (rel_nw _ _ H4) by auto.
  cbn. rewrite app_nil_r. auto 10.
Qed.
Lemma noeq_app a t b o : opfree a -> rel_text o t -> noeq (a ++ t ++ b).
Proof.
  intros H Ht. destruct a as [|c a]; cbn; [|inv H; lia].
  destruct (rel_head _ _ Ht) as (c & r & -> & _ & Hc). auto.
Qed.
Lemma cmp22 P o Q P' o' Q' c w t y w' t' y' : good P -> good Q -> good P' -> good Q' ->
  shape2 P o Q c w t y -> shape2 P' o' Q' c w' t' y' -> nw w = nw w' /\ t = t' /\ nw y = nw y' /\ o = o'.
Proof.
  intros GP GQ GP' GQ' H H'. apply view2 in H as (E & HP & HT & HQ). apply view2 in H' as (E' & HP' & HT' & HQ').
  rewrite E in E'. eapply cut in E'; eauto; apply opfree_noeq; auto.
Qed.
Lemma cmp23 P o Q P' o' Q' o'' T' c w t y w' t' y' t'' z' : good P -> good Q -> good P' -> good Q' -> good T' ->
  shape2 P o Q c w t y -> shape3 P' o' Q' o'' T' c w' t' y' t'' z' -> False.
Proof.
  intros GP GQ GP' GQ' GT H H'. apply view2 in H as (E & HP & HT & HQ).
  apply view3 in H' as (E' & HP' & HT' & HQ' & HT'' & HR).
  rewrite E in E'. eapply cut in E'; eauto; [|apply opfree_noeq; auto|eapply noeq_app; eauto; apply GQ'; auto].
  destruct E' as (_ & _ & E' & _). apply GQ in HQ. rewrite E' in HQ. unfold opfree in HQ. rewrite !Forall_app in HQ.
  destruct HQ as (_ & HQ & _). destruct (rel_head _ _ HT'') as (d & r & -> & Hd & _). inv HQ. tauto.
Qed.
Lemma cmp33 P o Q ob T P' o' Q' ob' T' c w t y tb z w' t' y' tb' z' :
  good P -> good Q -> good T -> good P' -> good Q' -> good T' ->
  shape3 P o Q ob T c w t y tb z -> shape3 P' o' Q' ob' T' c w' t' y' tb' z' ->
  nw w = nw w' /\ nw y = nw y' /\ nw z = nw z' /\ o = o' /\ ob = ob'.
Proof.
  intros GP GQ GT GP' GQ' GT' H H'. apply view3 in H as (E & HP & HT & HQ & HTb & HR).
  apply view3 in H' as (E' & HP' & HT' & HQ' & HTb' & HR').
  rewrite E in E'. apply (cut _ _ _ _ _ _ o o') in E'; auto.
  2:{ eapply noeq_app; [|eassumption]. auto. }
  2:{ eapply noeq_app; [|eassumption]. auto. }
  destruct E' as (E1 & E2 & E3 & E4).
  apply (cut _ _ _ _ _ _ ob ob') in E3; auto; try (apply opfree_noeq; auto). tauto.
Qed.
(** Names that could be numbers. *)
Lemma opt_nil (P : ascii -> Prop) t : opt_text P t -> Forall name_char t -> (forall c, P c -> ~ name_char c) -> t = [].
Proof. intros [->|(c & -> & H)] F K; auto. inv F. exfalso. eapply K; eauto. Qed.
Lemma notname n : In n [45; 43; 46; 47]%nat -> ~ name_char (ch n).
Proof.
  intros H K. unfold name_char, digit in K. cbn in H. assert (n < 256)%nat by lia. rewrite cd_ch in K by auto.
  cbn in K. lia.
Qed.
Lemma num_name w : numlang w -> name_text w -> looks_numeric w.
Proof.
  intros H (N & F). apply numlang_iff in H
    as [(g & i & p & f & e & g' & d & -> & H1 & H2 & H3 & H4 & H5 & H6 & H7)|(a & b & -> & F1 & _ & F2 & _)].
  - rewrite !Forall_app in F. destruct F as (F1 & _ & F2 & _ & F3 & F4 & _).
    apply opt_nil in H1; auto; [|intros c [->| ->]; apply notname; cbn; auto].
    apply opt_nil in H3; auto; [|intros c ->; apply notname; cbn; auto].
    apply opt_nil in H6; auto; [|intros c [->| ->]; apply notname; cbn; auto]. subst. cbn.
    exists (i ++ f), d. repeat split; auto; [now apply Forall_app|].
    destruct H5 as [->|(c & -> & [->| ->])]; rewrite <- !app_assoc; auto.
  - exfalso. apply Forall_app in F as (_ & F). inv F. apply (notname 47); cbn; auto.
Qed.
Lemma name_noslash p : name_text p -> existsb (chr 47) p = false.
Proof.
  intros (_ & F). induction F as [|c p H F IH]; cbn; auto. rewrite IH, orb_false_r.
  destruct (chr 47 c) eqn:E; auto. exfalso. apply chr_iff in E; [|lia]. subst. revert H. apply notname. cbn; auto.
Qed.
Lemma hasslash p q : existsb (chr 47) (p ++ ch 47 :: q) = true.
Proof. rewrite existsb_app. cbn [existsb]. replace (chr 47 (ch 47)) with true by reflexivity. apply orb_true_r. Qed.
Lemma num_ratio p q : numlang (p ++ ch 47 :: q) -> name_text p -> name_text q -> looks_numeric p.
Proof.
  intros H Np Nq. apply numlang_iff in H as [H|(a & b & E & F1 & _ & F2 & _)].
  - apply decimal_noslash in H. rewrite hasslash in H. discriminate.
  - assert (p = a).
    { destruct (until_slash_app p q (name_noslash p Np)) as (A & _).
      destruct (until_slash_app a b (noslash_digits a F1)) as (A' & _). rewrite E in A. congruence. }
    subst. exists a, []. rewrite app_nil_r. auto.
Qed.
Lemma slash_inj p q p' q' : name_text p -> name_text p' -> p ++ ch 47 :: q = p' ++ ch 47 :: q' -> p = p' /\ q = q'.
Proof.
  intros N N' E. destruct (until_slash_app p q (name_noslash p N)) as (A & B).
  destruct (until_slash_app p' q' (name_noslash p' N')) as (A' & B'). rewrite E in A, B. split; congruence.
Qed.
Lemma name_not_ratio w p q m : name_text w -> ratio_text p q m -> nw w = nw m -> False.
Proof.
  intros N R E. rewrite (name_nw w N) in E. apply ratio_nw in R as (R & _). rewrite R in E. subst.
  apply name_noslash in N. rewrite hasslash in N. discriminate.
Qed.
Lemma num_not_ratio w p q m : numlang w -> ratio_text p q m -> nw w = nw m -> looks_numeric p.
Proof.
  intros N R E. rewrite (num_nw w N) in E. pose proof R as (s1 & s2 & _ & Np & Nq & _).
  apply ratio_nw in R as (R & _). rewrite R in E. subst. eapply num_ratio; eauto.
Qed.
Lemma num_not_name w p : numlang w -> name_text p -> nw w = nw p -> looks_numeric p.
Proof. intros N R E. rewrite (num_nw w N), (name_nw p R) in E. subst. now apply num_name. Qed.
